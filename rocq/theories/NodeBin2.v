(** * NodeBin2: Difference, Intersection, SubsetOf, Equal. *)
From Verif Require Import Base Bits Env EnvFacts Node NodeWf NodeAdd NodeRemove NodeBin.

Section NodeBin2.
Local Opaque maxTreeDepth fanout fb.
Context {E : Env} {T : Type} {K : Key T} {vok : T -> Prop} {KO : KeyOk K vok}.
Notation node := (node T).
Notation wf := (wf vok).
Notation pre := (pre vok).
Notation allok := (allok vok).

Lemma has_at_wf fuel d n e :
  wf d n -> vok e -> maxTreeDepth - d < fuel ->
  has_at fuel n e d = Ok (isSome (lookup (elems n) e)).
Proof. intros Hwf He Hf. unfold has_at. rewrite (get_wf (vok := vok)) by auto. reflexivity. Qed.

(** ** Filtering lists *)

Definition countb (p : T -> bool) (l : list T) : Z := Z.of_nat (length (filter p l)).

Lemma filterGet_spec fuel keep d n l :
  wf d n -> allok l -> maxTreeDepth - d < fuel ->
  filterGet fuel keep l n d =
    Ok (filter (fun e => Bool.eqb (isSome (lookup (elems n) e)) keep) l,
        countb (fun e => isSome (lookup (elems n) e)) l).
Proof.
  intros Hwf Hok Hf. unfold countb. induction l as [|e l IH]; cbn [filterGet]; auto.
  rewrite has_at_wf by (auto; apply Hok; left; auto). cbn [bind].
  rewrite IH by (intros x Hx; apply Hok; right; auto). cbn [bind].
  simpl. destruct (isSome (lookup (elems n) e)); simpl.
  - do 2 f_equal. lia.
  - reflexivity.
Qed.

Lemma lookup_filter p l w :
  distinct l -> allok l -> vok w ->
  lookup (filter p l) w = match lookup l w with Some e => if p e then Some e else None | None => None end.
Proof.
  intros Hd Hok Hw. destruct (lookup l w) as [e|] eqn:El.
  - apply lookup_Some in El as [He Hq]. destruct (p e) eqn:Ep.
    + apply lookup_iff; auto using distinct_filter, allok_filter.
      split; auto. apply filter_In; auto.
    + apply lookup_None. intros x Hx. apply filter_In in Hx as [Hx Hpx].
      destruct (veq x w) eqn:Ex; auto.
      assert (Some x = Some e) as [= ->]; [|congruence].
      rewrite <- (proj2 (lookup_iff l w x Hd Hok Hw)) by auto.
      apply lookup_iff; auto.
  - apply lookup_None. intros x Hx. apply filter_In in Hx as [Hx _].
    apply (proj1 (lookup_None l w)); auto.
Qed.

Lemma countb_eqb_false (q : T -> bool) l :
  (Z.of_nat (length (filter (fun e => Bool.eqb (q e) false) l)) + countb q l = Z.of_nat (length l))%Z.
Proof.
  unfold countb. induction l as [|a l IH]; simpl; auto. destruct (q a); simpl length; lia.
Qed.

Lemma countb_eqb_true (q : T -> bool) l :
  Z.of_nat (length (filter (fun e => Bool.eqb (q e) true) l)) = countb q l.
Proof.
  unfold countb. induction l as [|a l IH]; simpl; auto. destruct (q a); simpl length; lia.
Qed.

(** ** Branches rebuilt by a parallel loop and made canonical *)

Lemma par_canonical fuel g d mask (f : nat -> packer T -> res (bool * Z * packer T))
    (w : nat -> res (option node * Z)) (P : nat -> option node -> Z -> Prop) :
  d < maxTreeDepth ->
  gaugeOk g -> (mask < 2 ^ 16)%N ->
  (forall i, fanout <= i -> N.testbit mask (N.of_nat i) = false) ->
  slot_worker w f (mask_indices mask) ->
  (forall i, i < fanout -> N.testbit mask (N.of_nat i) = false -> w i = Ok (None, 0%Z)) ->
  (forall i, i < fanout -> exists o m, w i = Ok (o, m) /\ wfo vok (S d) o /\
     (forall e, In e (elemso o) -> digit d e = i) /\ P i o m) ->
  exists o data' ms,
    ('(_, matches, ret) <- parallel g d mask f emptyPacker ;;
     o <- canonical fuel d (Branch (updateMask (snd ret)) (snd ret)) ;;
     Ok (o, matches)) = Ok (o, sumZ (map ms (seq 0 fanout))) /\
    wfo vok d o /\ elemso o = flat_map elemso data' /\
    length data' = fanout /\ placed d data' /\ allok (flat_map elemso data') /\
    (forall i, i < fanout -> P i (child data' i) (ms i)).
Proof.
  intros Hd Hg Hmask Hhi Hsw Hz Hall.
  destruct (par_branch g d mask f w) as (s' & E1 & Hs & Hsc); auto.
  { intros i Hi. destruct (Hall i Hi) as (o & m & Hw & _). eauto. }
  rewrite E1. cbn [bind].
  assert (Hch : forall i c, child (snd s') i = Some c -> wf (S d) c).
  { intros i c Hc. assert (i < fanout) as Hi.
    { destruct (Nat.lt_ge_cases i fanout); auto. rewrite child_overflow in Hc by lia. discriminate. }
    destruct (Hall i Hi) as (o & m & Hw & Ho & _).
    rewrite (Hsc i o m) in Hc by auto. subst o. apply wfo_Some; auto. }
  assert (Hp : placed d (snd s')).
  { intros i e He. assert (i < fanout) as Hi.
    { destruct (Nat.lt_ge_cases i fanout); auto. rewrite child_overflow in He by lia. contradiction. }
    destruct (Hall i Hi) as (o & m & Hw & _ & Ho & _).
    rewrite (Hsc i o m) in He by auto. auto. }
  destruct (canonical_branch (vok := vok) fuel d (snd s')) as (o & Eo & Ho & He); auto.
  rewrite Eo. cbn [bind].
  exists o, (snd s'), (fun i => outZ (w i)). split; auto. repeat split; auto.
  - eapply placed_allok; eauto.
  - intros i Hi. destruct (Hall i Hi) as (oi & m & Hw & _ & _ & HP).
    rewrite (Hsc i oi m) by auto. rewrite Hw. exact HP.
Qed.

(** ** Difference *)

Definition diffres (l1 l2 r : list T) (m : Z) : Prop :=
  (forall w, vok w -> lookup r w = match lookup l2 w with Some _ => None | None => lookup l1 w end) /\
  (Z.of_nat (length r) + m = Z.of_nat (length l1))%Z.

Lemma diffres_filter l1 l2 r :
  distinct l1 -> allok l1 -> allok l2 ->
  (forall w, vok w -> lookup r w = lookup (filter (fun e => Bool.eqb (isSome (lookup l2 e)) false) l1) w) ->
  length r = length (filter (fun e => Bool.eqb (isSome (lookup l2 e)) false) l1) ->
  diffres l1 l2 r (countb (fun e => isSome (lookup l2 e)) l1).
Proof.
  intros Hd Hok Hok2 H1 H2. split.
  - intros w Hw. rewrite H1, lookup_filter by auto.
    destruct (lookup l1 w) as [e|] eqn:El.
    + apply lookup_Some in El as [He Hq]. rewrite (lookup_veq l2 e w) by auto.
      destruct (lookup l2 w); auto.
    + destruct (lookup l2 w); auto.
  - rewrite H2. apply countb_eqb_false.
Qed.

Lemma diffres_nil l : diffres l [] l 0.
Proof. split; [auto|lia]. Qed.

Lemma diffres_in l1 l2 r m e : distinct r -> allok r -> diffres l1 l2 r m -> In e r -> In e l1.
Proof.
  intros Hd Hok [H1 _] He. pose proof (lookup_In r e Hd Hok He) as El.
  rewrite H1 in El by auto. destruct (lookup l2 e); [discriminate|]. apply lookup_Some in El as [Hi _]. auto.
Qed.

Lemma diffres_cons l1 v l2 r m r' m' :
  allok l1 -> allok l2 -> vok v -> remres (vok := vok) l1 v r m -> diffres r l2 r' m' ->
  diffres l1 (v :: l2) r' (m + m').
Proof.
  intros Hok Hok2 Hv (H1 & H2 & _) [H3 H4]. split; [|lia].
  intros w Hw. rewrite H3, H1 by auto. unfold rmv.
  change (lookup (v :: l2) w) with (if veq v w then Some v else lookup l2 w).
  destruct (veq v w); destruct (lookup l2 w); auto.
Qed.

Theorem difference_wf fuel : forall g d n n2,
  wf d n -> wf d n2 -> gaugeOk g -> fuelBin d <= fuel ->
  exists o m, difference fuel g n n2 d = Ok (o, m) /\ wfo vok d o /\
    diffres (elems n) (elems n2) (elemso o) m.
Proof.
  induction fuel as [|fuel IH]; intros g d n n2 Hwf1 Hwf2 Hg Hf; [unfold fuelBin in Hf; lia|].
  unfold fuelBin in Hf.
  pose proof (wf_allok _ _ Hwf1) as Hok1. pose proof (wf_distinct _ _ Hwf1) as Hdis1.
  pose proof (wf_allok _ _ Hwf2) as Hok2. pose proof (wf_distinct _ _ Hwf2) as Hdis2.
  destruct n as [a|a b|l|m1 d1].
  - inversion Hwf1; subst. cbn [difference]. rewrite has_at_wf by (auto; lia). cbn [bind].
    pose proof (fun r => diffres_filter [a] (elems n2) r Hdis1 Hok1 Hok2) as HD.
    unfold countb in HD. simpl in HD.
    destruct (isSome (lookup (elems n2) a)); simpl in HD; do 2 eexists; (split; [reflexivity|]).
    + split; [apply wfo_None|]. apply HD; auto.
    + split; [apply wfo_Some; auto|]. apply HD; auto.
  - inversion Hwf1; subst. cbn [difference]. rewrite !has_at_wf by (auto; lia). cbn [bind].
    pose proof (fun r => diffres_filter [a; b] (elems n2) r Hdis1 Hok1 Hok2) as HD.
    unfold countb in HD. simpl in HD.
    destruct (isSome (lookup (elems n2) a)), (isSome (lookup (elems n2) b)); simpl in HD;
      do 2 eexists; (split; [reflexivity|]);
      (split; [first [apply wfo_None | apply wfo_Some; first [assumption | constructor; auto]]|]); apply HD; auto.
  - inversion Hwf1; subst. cbn [difference]. rewrite filterGet_spec by (auto; lia). cbn [bind].
    destruct (canonicalTwig_wf (vok := vok) maxTreeDepth fuel
      (filter (fun e => Bool.eqb (isSome (lookup (elems n2) e)) false) l)) as (o & Eo & Ho & Hl & Hlen);
      auto using distinct_filter, allok_filter; try lia.
    rewrite Eo. cbn [bind]. do 2 eexists. split; [reflexivity|]. split; auto.
    apply diffres_filter; auto.
  - inversion Hwf1 as [| | |d' m' data' Hd Hlen1 Hm1 Hch1 Hp1 Hl1]; subst d' m' data'.
    destruct n2 as [x|x y|l2|m2 d2].
    + inversion Hwf2; subst. cbn [difference].
      destruct (without_wf (vok := vok) fuel d (Branch (updateMask d1) d1) x) as (o & m & E1 & Ho & Hr & _); auto.
      { unfold fuelAt; lia. }
      exists o, m. split; auto. split; auto.
      replace m with (m + 0)%Z by lia. eapply diffres_cons; eauto using allok_nil. apply diffres_nil.
    + inversion Hwf2; subst. cbn [difference].
      destruct (without_wf (vok := vok) fuel d (Branch (updateMask d1) d1) x) as (o & m & E1 & Ho & Hr & _); auto.
      { unfold fuelAt; lia. }
      rewrite E1. cbn [bind]. destruct o as [n1|].
      2:{ destruct Hr as (_ & Hr & Hh). unfold hit in Hh. destruct (isSome _); subst m; cbn [elemso length] in Hr; lia. }
      apply wfo_Some in Ho.
      destruct (without_wf (vok := vok) fuel d n1 y) as (o' & m' & E2 & Ho' & Hr' & _); auto.
      { unfold fuelAt; lia. }
      rewrite E2. cbn [bind]. do 2 eexists. split; [reflexivity|]. split; auto.
      eapply diffres_cons; eauto.
      * intros e [<-|[]]; auto.
      * replace m' with (m' + 0)%Z by lia. eapply diffres_cons; eauto using allok_nil, wf_allok. apply diffres_nil.
    + inversion Hwf2; subst. lia.
    + inversion Hwf2 as [| | |d' m' data' _ Hlen2 Hm2 Hch2 Hp2 Hl2]; subst d' m' data'.
      cbn [difference].
      set (w := fun i => match child d1 i, child d2 i with
                         | x, None => Ok (x, 0%Z)
                         | None, Some _ => Ok (None, 0%Z)
                         | Some x, Some y => difference fuel (g_sub i g) x y (S d)
                         end).
      match goal with |- context [parallel _ _ _ ?F emptyPacker] => set (f := F) end.
      destruct (par_canonical fuel g d m1 f w
        (fun i o m => diffres (elemso (child d1 i)) (elemso (child d2 i)) (elemso o) m))
        as (o & data' & ms & E1 & Ho & He & Hlen & Hp & Hokd & HP); auto.
      { subst m1. apply updateMask_lt. }
      { intros i Hi. subst m1. apply mask_ge_fanout; auto. }
      { intros i s Hi. unfold w, f. rewrite Hm1 in Hi. apply mask_indices_updateMask in Hi as (x & Ex); auto.
        rewrite Ex. destruct (child d2 i) as [y|].
        - exists (fun m => m). destruct (difference _ _ _ _ _) as [[r m]| |]; reflexivity.
        - exists (fun m => m). reflexivity. }
      { intros i Hi Ht. rewrite Hm1, updateMask_testbit in Ht by auto. unfold w.
        destruct (child d1 i); [discriminate|]. destruct (child d2 i); auto. }
      { intros i Hi. unfold w. destruct (child d1 i) as [x|] eqn:E1; destruct (child d2 i) as [y|] eqn:E2.
        - destruct (IH (g_sub i g) (S d) x y) as (o & m & Eo & Ho & Hres); eauto.
          { apply gaugeOk_sub; auto. }
          { unfold fuelBin; lia. }
          exists o, m. split; auto. split; auto. split; auto.
          intros e He. apply (Hp1 i). rewrite E1. simpl.
          assert (allok (elemso o) /\ distinct (elemso o)) as [HA HB].
          { destruct o as [c|]; [|split; [intros z []|constructor]].
            split; [eapply wf_allok|eapply wf_distinct]; apply Ho; auto. }
          eapply diffres_in; eauto.
        - exists (Some x), 0%Z. split; auto. split; [apply wfo_Some; eauto|]. split.
          + intros e He. apply (Hp1 i). rewrite E1; auto.
          + apply diffres_nil.
        - exists None, 0%Z. split; auto. split; [apply wfo_None|]. split; [intros e []|].
          split; auto. intros w0 _. simpl. destruct (lookup _ w0); auto.
        - exists None, 0%Z. split; auto. split; [apply wfo_None|]. split; [intros e []|].
          apply diffres_nil. }
      rewrite E1. do 2 eexists. split; [reflexivity|]. split; auto.
      rewrite He, !elems_branch in *. split.
      * intros w0 Hw0. rewrite (lookup_placed d data'), (lookup_placed d d1), (lookup_placed d d2) by auto.
        apply HP; auto. apply digit_lt.
      * rewrite (length_branch data' fanout), (length_branch d1 fanout) by auto.
        rewrite <- sumZ_plus. apply sumZ_ext. intros i Hi. apply in_seq in Hi. apply HP. lia.
Qed.

(** ** Intersection *)

Definition isect (o1 o2 o : option T) : Prop :=
  match o1, o2 with
  | Some a, Some b => o = Some a \/ o = Some b
  | _, _ => o = None
  end.

Definition intres (l1 l2 r : list T) (m : Z) : Prop :=
  (forall w, vok w -> isect (lookup l1 w) (lookup l2 w) (lookup r w)) /\
  Z.of_nat (length r) = m.

Lemma intres_sym l1 l2 r m : intres l1 l2 r m -> intres l2 l1 r m.
Proof.
  intros [H1 H2]. split; auto. intros w Hw. specialize (H1 w Hw). unfold isect in *.
  destruct (lookup l1 w), (lookup l2 w); tauto.
Qed.

Lemma intres_filter l1 l2 r :
  distinct l1 -> allok l1 -> allok l2 ->
  (forall w, vok w -> lookup r w = lookup (filter (fun e => Bool.eqb (isSome (lookup l2 e)) true) l1) w) ->
  length r = length (filter (fun e => Bool.eqb (isSome (lookup l2 e)) true) l1) ->
  intres l1 l2 r (countb (fun e => isSome (lookup l2 e)) l1).
Proof.
  intros Hd Hok Hok2 H1 H2. split.
  - intros w Hw. rewrite H1, lookup_filter by auto.
    unfold isect. destruct (lookup l1 w) as [e|] eqn:El; auto.
    apply lookup_Some in El as [He Hq]. rewrite (lookup_veq l2 e w) by auto.
    destruct (lookup l2 w); simpl; auto.
  - rewrite H2. apply countb_eqb_true.
Qed.

Lemma intres_in l1 l2 r m e : distinct r -> allok r -> intres l1 l2 r m -> In e r -> In e l1 \/ In e l2.
Proof.
  intros Hd Hok [H1 _] He. pose proof (lookup_In r e Hd Hok He) as El.
  specialize (H1 e (Hok e He)). rewrite El in H1. unfold isect in H1.
  destruct (lookup l1 e) as [a|] eqn:E1; [|discriminate].
  destruct (lookup l2 e) as [b|] eqn:E2; [|discriminate].
  apply lookup_Some in E1 as [E1 _]. apply lookup_Some in E2 as [E2 _].
  destruct H1 as [[= <-]|[= <-]]; auto.
Qed.

Lemma intersectLeaf1_wf fuel d a n2 :
  wf d (Leaf1 a) -> wf d n2 -> maxTreeDepth - d < fuel ->
  exists o m, intersectLeaf1 fuel a n2 d = Ok (o, m) /\ wfo vok d o /\ intres [a] (elems n2) (elemso o) m.
Proof.
  intros Hwf1 Hwf2 Hf. unfold intersectLeaf1. inversion Hwf1; subst.
  rewrite has_at_wf by auto. cbn [bind].
  pose proof (fun r => intres_filter [a] (elems n2) r (wf_distinct _ _ Hwf1) (wf_allok _ _ Hwf1) (wf_allok _ _ Hwf2)) as HD.
  unfold countb in HD. simpl in HD.
  destruct (isSome (lookup (elems n2) a)); simpl in HD; do 2 eexists; (split; [reflexivity|]).
  - split; [apply wfo_Some; auto|]. apply HD; auto.
  - split; [apply wfo_None|]. apply HD; auto.
Qed.

Lemma intersectLeaf2_wf fuel d a b n2 :
  wf d (Leaf2 a b) -> wf d n2 -> maxTreeDepth - d < fuel ->
  exists o m, intersectLeaf2 fuel a b n2 d = Ok (o, m) /\ wfo vok d o /\ intres [a; b] (elems n2) (elemso o) m.
Proof.
  intros Hwf1 Hwf2 Hf. unfold intersectLeaf2. inversion Hwf1; subst.
  rewrite !has_at_wf by auto. cbn [bind].
  pose proof (fun r => intres_filter [a; b] (elems n2) r (wf_distinct _ _ Hwf1) (wf_allok _ _ Hwf1) (wf_allok _ _ Hwf2)) as HD.
  unfold countb in HD. simpl in HD.
  destruct (isSome (lookup (elems n2) a)), (isSome (lookup (elems n2) b)); simpl in HD;
    do 2 eexists; (split; [reflexivity|]);
    (split; [first [apply wfo_None | apply wfo_Some; first [assumption | constructor; auto]]|]); apply HD; auto.
Qed.

Theorem intersection_wf fuel : forall g d n n2,
  wf d n -> wf d n2 -> gaugeOk g -> fuelBin d <= fuel ->
  exists o m, intersection fuel g n n2 d = Ok (o, m) /\ wfo vok d o /\
    intres (elems n) (elems n2) (elemso o) m.
Proof.
  induction fuel as [|fuel IH]; intros g d n n2 Hwf1 Hwf2 Hg Hf; [unfold fuelBin in Hf; lia|].
  unfold fuelBin in Hf.
  pose proof (wf_allok _ _ Hwf1) as Hok1. pose proof (wf_distinct _ _ Hwf1) as Hdis1.
  pose proof (wf_allok _ _ Hwf2) as Hok2. pose proof (wf_distinct _ _ Hwf2) as Hdis2.
  destruct n as [a|a b|l|m1 d1].
  - apply intersectLeaf1_wf; auto; lia.
  - apply intersectLeaf2_wf; auto; lia.
  - inversion Hwf1; subst. cbn [intersection]. rewrite filterGet_spec by (auto; lia). cbn [bind].
    destruct (canonicalTwig_wf (vok := vok) maxTreeDepth fuel
      (filter (fun e => Bool.eqb (isSome (lookup (elems n2) e)) true) l)) as (o & Eo & Ho & Hl & Hlen);
      auto using distinct_filter, allok_filter; try lia.
    rewrite Eo. cbn [bind]. do 2 eexists. split; [reflexivity|]. split; auto.
    apply intres_filter; auto.
  - inversion Hwf1 as [| | |d' m' data' Hd Hlen1 Hm1 Hch1 Hp1 Hl1]; subst d' m' data'.
    destruct n2 as [x|x y|l2|m2 d2].
    + cbn [intersection]. destruct (intersectLeaf1_wf fuel d x (Branch m1 d1)) as (o & m & E1 & Ho & Hr); auto; try lia.
      exists o, m. split; auto. split; auto. apply intres_sym; auto.
    + cbn [intersection]. destruct (intersectLeaf2_wf fuel d x y (Branch m1 d1)) as (o & m & E1 & Ho & Hr); auto; try lia.
      exists o, m. split; auto. split; auto. apply intres_sym; auto.
    + inversion Hwf2; subst. lia.
    + inversion Hwf2 as [| | |d' m' data' _ Hlen2 Hm2 Hch2 Hp2 Hl2]; subst d' m' data'.
      cbn [intersection].
      set (w := fun i => match child d1 i, child d2 i with
                         | Some x, Some y => intersection fuel (g_sub i g) x y (S d)
                         | _, _ => Ok (None, 0%Z)
                         end).
      match goal with |- context [parallel _ _ _ ?F emptyPacker] => set (f := F) end.
      assert (Htb : forall i, N.testbit (N.land m1 m2) (N.of_nat i) =
                (isSome (child d1 i) && isSome (child d2 i))%bool).
      { intros i. rewrite Hm1, Hm2, N.land_spec, !updateMask_testbit by auto. auto. }
      assert (Hml : (N.land m1 m2 < 2 ^ 16)%N).
      { apply lt_pow_land. subst m1. apply updateMask_lt. }
      destruct (par_canonical fuel g d (N.land m1 m2) f w
        (fun i o m => intres (elemso (child d1 i)) (elemso (child d2 i)) (elemso o) m))
        as (o & data' & ms & E1 & Ho & He & Hlen & Hp & Hokd & HP); auto.
      { intros i Hi. rewrite Htb. rewrite child_overflow by lia. auto. }
      { intros i s Hi. unfold w, f. apply mask_indices_In in Hi as [_ Hi]; auto. rewrite Htb in Hi.
        destruct (child d1 i) as [x|]; [|discriminate]. destruct (child d2 i) as [y|]; [|discriminate].
        exists (fun m => m). destruct (intersection _ _ _ _ _) as [[r m]| |]; reflexivity. }
      { intros i Hi Ht. rewrite Htb in Ht. unfold w.
        destruct (child d1 i); destruct (child d2 i); auto; discriminate. }
      { intros i Hi. unfold w. destruct (child d1 i) as [x|] eqn:E1; destruct (child d2 i) as [y|] eqn:E2.
        - destruct (IH (g_sub i g) (S d) x y) as (o & m & Eo & Ho & Hres); eauto.
          { apply gaugeOk_sub; auto. }
          { unfold fuelBin; lia. }
          exists o, m. split; auto. split; auto. split; auto.
          intros e He.
          assert (allok (elemso o) /\ distinct (elemso o)) as [HA HB].
          { destruct o as [c|]; [|split; [intros z []|constructor]].
            split; [eapply wf_allok|eapply wf_distinct]; apply Ho; auto. }
          destruct (intres_in _ _ _ _ e HB HA Hres He) as [He'|He'].
          + apply (Hp1 i). rewrite E1; auto.
          + apply (Hp2 i). rewrite E2; auto.
        - exists None, 0%Z. split; auto. split; [apply wfo_None|]. split; [intros e []|].
          split; auto. intros w0 _. unfold isect; simpl. destruct (lookup _ w0); auto.
        - exists None, 0%Z. split; auto. split; [apply wfo_None|]. split; [intros e []|].
          split; auto. intros w0 _. reflexivity.
        - exists None, 0%Z. split; auto. split; [apply wfo_None|]. split; [intros e []|].
          split; auto. intros w0 _. reflexivity. }
      rewrite E1. do 2 eexists. split; [reflexivity|]. split; auto.
      rewrite He, !elems_branch in *. split.
      * intros w0 Hw0. rewrite (lookup_placed d data'), (lookup_placed d d1), (lookup_placed d d2) by auto.
        apply HP; auto. apply digit_lt.
      * rewrite (length_branch data' fanout) by auto.
        apply sumZ_ext. intros i Hi. apply in_seq in Hi. apply HP. lia.
Qed.

(** ** SubsetOf *)

Definition subres (l1 l2 : list T) (b : bool) : Prop :=
  b = true <-> (forall e, In e l1 -> lookup l2 e <> None).

Lemma isSome_ne {A} (o : option A) : isSome o = true <-> o <> None.
Proof. destruct o; simpl; split; intros; auto; congruence. Qed.

Lemma allGet_spec fuel d n l :
  wf d n -> allok l -> maxTreeDepth - d < fuel ->
  allGet fuel l n d = Ok (forallb (fun e => isSome (lookup (elems n) e)) l).
Proof.
  intros Hwf Hok Hf. induction l as [|e l IH]; cbn [allGet forallb]; auto.
  rewrite has_at_wf by (auto; apply Hok; left; auto). cbn [bind].
  destruct (isSome _); auto. apply IH. intros x Hx; apply Hok; right; auto.
Qed.

(** The result of a parallel loop of boolean workers. *)
Lemma par_all g d mask (f : nat -> unit -> res (bool * Z * unit)) (w : nat -> res bool) (P : nat -> Prop) :
  gaugeOk g -> (mask < 2 ^ 16)%N ->
  (forall i u, In i (mask_indices mask) -> f i u = bind (w i) (fun b => Ok (b, 0%Z, tt))) ->
  (forall i, In i (mask_indices mask) -> exists b, w i = Ok b /\ (b = true <-> P i)) ->
  exists b, ('(ok, _, _) <- parallel g d mask f tt ;; Ok ok) = Ok b /\
    (b = true <-> forall i, In i (mask_indices mask) -> P i).
Proof.
  intros Hg Hm Hf Hw. unfold parallel.
  pose proof (par_order_perm g d mask Hg) as HP.
  destruct (par_bool w f (par_order g d mask) 0%Z) as (m & E1).
  - intros i u Hi. apply Hf. eapply Permutation_in; eauto.
  - intros i Hi. destruct (Hw i) as (b & Eb & _); [eapply Permutation_in; eauto|]. eauto.
  - rewrite E1. cbn [bind]. eexists; split; [reflexivity|].
    rewrite forallb_forall. split; intros H i Hi.
    + destruct (Hw i Hi) as (b & Eb & Hb). apply Hb.
      specialize (H i). rewrite Eb in H. apply H. eapply Permutation_in; [symmetry|]; eauto.
    + eapply Permutation_in in Hi; eauto. destruct (Hw i Hi) as (b & Eb & Hb). rewrite Eb.
      apply Hb. auto.
Qed.

Theorem subsetOf_wf fuel : forall g d n n2,
  wf d n -> wf d n2 -> gaugeOk g -> fuelBin d <= fuel ->
  exists b, subsetOf fuel g n n2 d = Ok b /\ subres (elems n) (elems n2) b.
Proof.
  induction fuel as [|fuel IH]; intros g d n n2 Hwf1 Hwf2 Hg Hf; [unfold fuelBin in Hf; lia|].
  unfold fuelBin in Hf. unfold subres.
  pose proof (wf_allok _ _ Hwf1) as Hok1. pose proof (wf_distinct _ _ Hwf1) as Hdis1.
  pose proof (wf_allok _ _ Hwf2) as Hok2. pose proof (wf_distinct _ _ Hwf2) as Hdis2.
  destruct n as [a|a b|l|m1 d1].
  - inversion Hwf1; subst. cbn [subsetOf]. rewrite has_at_wf by (auto; lia).
    eexists; split; [reflexivity|]. rewrite isSome_ne. simpl. split; [intros H e [<-|[]]; auto|auto].
  - inversion Hwf1; subst. cbn [subsetOf]. rewrite !has_at_wf by (auto; lia). cbn [bind].
    exists (isSome (lookup (elems n2) a) && isSome (lookup (elems n2) b))%bool.
    split; [destruct (isSome (lookup (elems n2) a)); reflexivity|].
    rewrite andb_true_iff, !isSome_ne. simpl. split; [intros [Hs1 Hs2] e [<-|[<-|[]]]; auto|auto].
  - inversion Hwf1; subst. cbn [subsetOf]. rewrite allGet_spec by (auto; lia).
    eexists; split; [reflexivity|]. rewrite forallb_forall. simpl.
    split; intros H e He; [apply isSome_ne|apply isSome_ne]; auto.
  - inversion Hwf1 as [| | |d' m' data' Hd Hlen1 Hm1 Hch1 Hp1 Hl1]; subst d' m' data'.
    assert (Hsmall : length (elems n2) <= 2 ->
      (forall e, In e (elems (Branch m1 d1)) -> lookup (elems n2) e <> None) -> False).
    { intros Hs H. assert (length (elems (Branch m1 d1)) <= length (elems n2)); [|lia].
      apply (distinct_length_le (vok := vok)); auto. intros a Ha. specialize (H a Ha).
      destruct (lookup (elems n2) a) as [b|] eqn:Eb; [|congruence].
      apply lookup_Some in Eb as [Hb Hq]. exists b; split; auto. apply veq_sym; auto. }
    destruct n2 as [x|x y|l2|m2 d2].
    + cbn [subsetOf]. eexists; split; [reflexivity|]. split; [discriminate|]. intros H. exfalso.
      apply Hsmall; auto; simpl; lia.
    + cbn [subsetOf]. eexists; split; [reflexivity|]. split; [discriminate|]. intros H. exfalso.
      apply Hsmall; auto; simpl; lia.
    + inversion Hwf2; subst. lia.
    + inversion Hwf2 as [| | |d' m' data' _ Hlen2 Hm2 Hch2 Hp2 Hl2]; subst d' m' data'.
      cbn [subsetOf]. clear Hsmall.
      set (w := fun i => match child d1 i, child d2 i with
                         | None, _ => Ok true
                         | Some _, None => Ok false
                         | Some x, Some y => subsetOf fuel (g_sub i g) x y (S d)
                         end).
      match goal with |- context [parallel _ _ _ ?F tt] => set (f := F) end.
      assert (Hmask : (N.lor m1 m2 < 2 ^ 16)%N).
      { subst m1 m2. apply lt_pow_lor; apply updateMask_lt. }
      destruct (par_all g d (N.lor m1 m2) f w
        (fun i => forall e, In e (elemso (child d1 i)) -> lookup (elemso (child d2 i)) e <> None))
        as (b & E1 & Hb); auto.
      { intros i [] Hi. unfold w, f. destruct (child d1 i); auto. destruct (child d2 i); auto. }
      { intros i Hi. unfold w. destruct (child d1 i) as [x|] eqn:E1; [destruct (child d2 i) as [y|] eqn:E2|].
        - apply IH; eauto; [apply gaugeOk_sub; auto|unfold fuelBin; lia].
        - exists false. split; auto. split; [discriminate|]. intros H. exfalso.
          assert (Hx : wf (S d) x) by eauto. apply wf_nonnil in Hx. simpl in H.
          destruct (elems x) as [|e es]; [congruence|]. apply (H e); [left; auto|reflexivity].
        - exists true. split; auto. split; [intros _ e []|auto]. }
      rewrite E1. eexists; split; [reflexivity|]. rewrite Hb. rewrite !elems_branch in *.
      split.
      * intros H e He. rewrite (lookup_placed d d2) by auto.
        apply in_flat_map_child in He as (i & He). rewrite (Hp1 i e He). apply H; auto.
        apply mask_indices_In; auto. apply elemso_in in He as (c & Ec & _).
        assert (i < fanout).
        { destruct (Nat.lt_ge_cases i fanout); auto. rewrite child_overflow in Ec by lia. discriminate. }
        split; [pose proof fanout_le; lia|]. rewrite (child_in_mask m1 m2 d1 d2) by auto. rewrite Ec; auto.
      * intros H i _ e He. rewrite <- (Hp1 i e He), <- lookup_placed by
          (auto; apply Hok1; apply in_flat_map_child; eauto).
        apply H. apply in_flat_map_child; eauto.
Qed.

(** ** Equal *)

Section Equal.
Variable eq : T -> T -> bool.
Hypothesis Heq : forall a b, vok a -> vok b -> eq a b = true -> veq a b = true.

(** Every element on either side has an [eq] partner on the other. *)
Definition eqv (l1 l2 : list T) : Prop :=
  (forall e, In e l1 -> exists f, In f l2 /\ eq e f = true) /\
  (forall f, In f l2 -> exists e, In e l1 /\ eq e f = true).

Lemma eqv_length l1 l2 : distinct l1 -> distinct l2 -> allok l1 -> allok l2 ->
  eqv l1 l2 -> length l1 = length l2.
Proof.
  intros Hd1 Hd2 Hok1 Hok2 [H1 H2].
  apply Nat.le_antisymm; apply (distinct_length_le (vok := vok)); auto.
  - intros a Ha. destruct (H1 a Ha) as (b & Hb & Hq). exists b; auto.
  - intros b Hb. destruct (H2 b Hb) as (a & Ha & Hq). exists a; split; auto. apply veq_sym; auto.
Qed.

Lemma eqv_onto l1 l2 : distinct l1 -> distinct l2 -> allok l1 -> allok l2 -> length l1 = length l2 ->
  (forall e, In e l1 -> exists f, In f l2 /\ eq e f = true) -> eqv l1 l2.
Proof.
  intros Hd1 Hd2 Hok1 Hok2 Hlen H1. split; auto.
  intros f Hf. destruct (existsb (fun e => eq e f) l1) eqn:Ex.
  - apply existsb_exists in Ex. auto.
  - exfalso. apply in_split in Hf as (l2a & l2b & ->).
    assert (length l1 <= length (l2a ++ l2b)); [|rewrite app_length in *; simpl in *; lia].
    apply (distinct_length_le (vok := vok)); auto.
    + intros e He. apply Hok2. apply in_app_or in He as [He|He]; apply in_or_app; simpl; auto.
    + intros a Ha. destruct (H1 a Ha) as (b & Hb & Hq).
      exists b. assert (vok b) by auto. split; auto.
      apply in_or_app. apply in_app_or in Hb as [Hb|[<-|Hb]]; auto.
      exfalso. assert (existsb (fun e => eq e f) l1 = true); [|congruence].
      apply existsb_exists. eauto.
Qed.

Lemma allIn_spec l l2 : allIn eq l l2 = true <-> forall e, In e l -> exists f, In f l2 /\ eq e f = true.
Proof.
  unfold allIn. rewrite forallb_forall. split; intros H e He; specialize (H e He).
  - apply existsb_exists in H. auto.
  - apply existsb_exists. auto.
Qed.

Theorem equal_wf fuel : forall g d n n2,
  wf d n -> wf d n2 -> gaugeOk g -> fuelBin d <= fuel ->
  exists b, equal fuel g eq n n2 d = Ok b /\ (b = true <-> eqv (elems n) (elems n2)).
Proof.
  induction fuel as [|fuel IH]; intros g d n n2 Hwf1 Hwf2 Hg Hf; [unfold fuelBin in Hf; lia|].
  unfold fuelBin in Hf.
  pose proof (wf_allok _ _ Hwf1) as Hok1. pose proof (wf_distinct _ _ Hwf1) as Hdis1.
  pose proof (wf_allok _ _ Hwf2) as Hok2. pose proof (wf_distinct _ _ Hwf2) as Hdis2.
  assert (Hdiff : length (elems n) <> length (elems n2) ->
    equal (S fuel) g eq n n2 d = Ok false ->
    exists b, equal (S fuel) g eq n n2 d = Ok b /\ (b = true <-> eqv (elems n) (elems n2))).
  { intros Hl E1. exists false. split; auto. split; [discriminate|]. intros H.
    apply eqv_length in H; auto. }
  inversion Hwf1 as [d' a Hd Ha|d' a b Hd Ha Hb Hab|d' l Hd Hl Hok Hdis|d' m1 d1 Hd Hlen1 Hm1 Hch1 Hp1 Hl1]; subst d' n;
  inversion Hwf2 as [d' x Hd' Hx|d' x y Hd' Hx Hy Hxy|d' l' Hd' Hl' Hok' Hdis'|d' m2 d2 Hd' Hlen2 Hm2 Hch2 Hp2 Hl2]; subst d' n2;
  try (apply Hdiff; [cbn [elems length] in *; lia|reflexivity]); try lia.
  - (* leaf1 *)
    clear Hdiff. cbn [equal]. eexists; split; [reflexivity|]. unfold eqv; simpl. split.
    + intros H. split; intros e [<-|[]]; eauto.
    + intros [H _]. destruct (H a) as (f & [<-|[]] & Hq); auto.
  - (* leaf2 *)
    clear Hdiff. cbn [equal]. eexists; split; [reflexivity|].
    rewrite orb_true_iff, !andb_true_iff. unfold eqv; simpl. split.
    + intros [[H1 H2]|[H1 H2]]; split; intros e [<-|[<-|[]]]; eauto.
    + intros [H1 _].
      destruct (H1 a) as (f & Hf1 & Hq1); auto. destruct (H1 b) as (f' & Hf2 & Hq2); auto.
      assert (Hne : f <> f').
      { intros <-. assert (Hfok : vok f) by (destruct Hf1 as [<-|[<-|[]]]; auto).
        assert (veq a b = true); [|congruence].
        apply (veq_trans a f b); auto. apply veq_sym; auto. }
      destruct Hf1 as [<-|[<-|[]]], Hf2 as [<-|[<-|[]]]; auto; congruence.
  - (* twig *)
    clear Hdiff. cbn [equal]. destruct (Nat.eqb_spec (length l) (length l')) as [Hll|Hll].
    + eexists; split; [reflexivity|]. rewrite allIn_spec. split.
      * intros H. apply eqv_onto; auto.
      * intros [H _]; auto.
    + exists false. split; auto. split; [discriminate|]. intros H. apply eqv_length in H; auto.
  - (* branch *)
    clear Hdiff. cbn [equal].
    (* eqv of branches is eqv of children *)
    assert (Hpt : eqv (flat_map elemso d1) (flat_map elemso d2) <->
                  forall i, eqv (elemso (child d1 i)) (elemso (child d2 i))).
    { rewrite !elems_branch in *.
      assert (Hin1 : forall i e, In e (elemso (child d1 i)) -> vok e).
      { intros i e He. apply Hok1. apply in_flat_map_child; eauto. }
      assert (Hin2 : forall i e, In e (elemso (child d2 i)) -> vok e).
      { intros i e He. apply Hok2. apply in_flat_map_child; eauto. }
      split.
      - intros [H1 H2] i. split.
        + intros e He. destruct (H1 e) as (f & Hff & Hq); [apply in_flat_map_child; eauto|].
          exists f. split; auto. apply in_flat_map_child in Hff as (j & Hj).
          replace i with j; auto. rewrite <- (Hp1 i e He), <- (Hp2 j f Hj). symmetry. apply veq_digit; eauto.
        + intros f Hff. destruct (H2 f) as (e & He & Hq); [apply in_flat_map_child; eauto|].
          exists e. split; auto. apply in_flat_map_child in He as (j & Hj).
          replace i with j; auto. rewrite <- (Hp2 i f Hff), <- (Hp1 j e Hj). apply veq_digit; eauto.
      - intros H. split.
        + intros e He. apply in_flat_map_child in He as (i & He).
          destruct (proj1 (H i) e He) as (f & Hff & Hq). exists f; split; auto. apply in_flat_map_child; eauto.
        + intros f Hff. apply in_flat_map_child in Hff as (i & Hff).
          destruct (proj2 (H i) f Hff) as (e & He & Hq). exists e; split; auto. apply in_flat_map_child; eauto. }
    destruct (N.eqb_spec m1 m2) as [Hmm|Hmm].
    + assert (Hsame : forall i, isSome (child d1 i) = isSome (child d2 i)).
      { intros i. rewrite <- !updateMask_testbit by auto. congruence. }
      assert (Hlt : (m1 < 2 ^ 16)%N) by (subst m1; apply updateMask_lt).
      set (w := fun i => match child d1 i, child d2 i with
                         | Some x, Some y => equal fuel (g_sub i g) eq x y (S d)
                         | _, _ => Panic
                         end).
      match goal with |- context [parallel _ _ _ ?F tt] => set (f := F) end.
      destruct (par_all g d m1 f w (fun i => eqv (elemso (child d1 i)) (elemso (child d2 i))))
        as (b & E1 & Hb); auto.
      { intros i [] Hi. unfold w, f. destruct (child d1 i); auto. destruct (child d2 i); auto. }
      { intros i Hi. unfold w. rewrite Hm1 in Hi. apply mask_indices_updateMask in Hi as (x & Ex); auto.
        pose proof (Hsame i) as Hs. rewrite Ex in *. destruct (child d2 i) as [y|] eqn:Ey; [|discriminate].
        apply IH; eauto; [apply gaugeOk_sub; auto|unfold fuelBin; lia]. }
      rewrite E1. eexists; split; [reflexivity|]. rewrite !elems_branch, Hpt, Hb.
      split.
      * intros H i. pose proof (Hsame i) as Hs. destruct (child d1 i) as [x|] eqn:Ex.
        -- specialize (H i). rewrite Ex in H. apply H. rewrite Hm1. apply mask_indices_updateMask; eauto.
        -- destruct (child d2 i); [discriminate|]. split; intros e [].
      * intros H i _. apply H.
    + exists false. split; auto. split; [discriminate|]. rewrite !elems_branch. intros H. exfalso. apply Hmm.
      rewrite Hm1, Hm2. apply mask_ext; try apply updateMask_lt. intros i.
      rewrite !updateMask_testbit by auto. rewrite Hpt in H. destruct (H i) as [H1 H2].
      destruct (child d1 i) as [x|] eqn:Ex, (child d2 i) as [y|] eqn:Ey; auto; exfalso.
      * assert (Hx : wf (S d) x) by eauto. apply wf_nonnil in Hx. simpl in H1.
        destruct (elems x) as [|e es]; [congruence|]. destruct (H1 e) as (z & [] & _). left; auto.
      * assert (Hy : wf (S d) y) by eauto. apply wf_nonnil in Hy. simpl in H2.
        destruct (elems y) as [|e es]; [congruence|]. destruct (H2 e) as (z & [] & _). left; auto.
Qed.

End Equal.

End NodeBin2.
