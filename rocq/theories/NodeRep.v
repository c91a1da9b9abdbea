(** * NodeRep: which of two equal elements Intersection keeps. *)
From Verif Require Import Base Bits Env EnvFacts Node NodeWf NodeAdd NodeRemove NodeBin NodeBin2 Tree TreeFacts Clash.

Section NodeRep.
Local Opaque maxTreeDepth fanout fb.
Context {E : Env} {T : Type} {K : Key T} {vok : T -> Prop} {KO : KeyOk K vok}.
Notation node := (node T).
Notation wf := (wf vok).
Notation pre := (pre vok).
Notation allok := (allok vok).

(** On the way to [w], [l2] comes down to two elements on a level where [l1] still has three. *)
Definition sooner (d : nat) (l1 l2 : list T) (w : T) : Prop :=
  exists k, d <= k < maxTreeDepth /\ 3 <= cnt (agree d k w) l1 /\ cnt (agree d k w) l2 <= 2.

(** [r] has the element of [l2] where that holds, and otherwise that of [l1]. *)
Definition picks (d : nat) (l1 l2 r : list T) : Prop :=
  forall w a b, vok w -> lookup l1 w = Some a -> lookup l2 w = Some b ->
    (sooner d l1 l2 w -> lookup r w = Some b) /\ (~ sooner d l1 l2 w -> lookup r w = Some a).

Lemma cnt_all d k w l : k <= d -> cnt (agree d k w) l = length l.
Proof.
  intros H. unfold cnt. f_equal. induction l as [|x l IH]; simpl; auto. rewrite agree_nil by auto. f_equal. auto.
Qed.

Lemma sooner_small d l1 l2 w : length l1 <= 2 -> ~ sooner d l1 l2 w.
Proof. intros H (k & _ & H1 & _). pose proof (cnt_le (agree d k w) l1). lia. Qed.

Lemma sooner_now d l1 l2 w : d < maxTreeDepth -> 3 <= length l1 -> length l2 <= 2 -> sooner d l1 l2 w.
Proof. intros H H1 H2. exists d. rewrite !cnt_all by lia. auto with arith. Qed.

Lemma sooner_step d d1 d2 w : placed d d1 -> placed d d2 -> 3 <= length (flat_map elemso d2) ->
  sooner d (flat_map elemso d1) (flat_map elemso d2) w <->
  sooner (S d) (elemso (child d1 (digit d w))) (elemso (child d2 (digit d w))) w.
Proof.
  intros Hp1 Hp2 H3. split; intros (k & Hk & H1 & H2).
  - destruct (Nat.eq_dec k d) as [->|Hn]; [rewrite cnt_all in H2 by lia; lia|].
    exists k. rewrite !cnt_branch in * by (auto; lia). split; [lia|auto].
  - exists k. rewrite !cnt_branch by (auto; lia). split; [lia|auto].
Qed.

Lemma lookup_has l1 l2 w a b : allok l1 -> allok l2 -> vok w -> lookup l1 w = Some a -> lookup l2 w = Some b ->
  isSome (lookup l2 a) = true.
Proof.
  intros H1 H2 Hw Ha Hb. apply lookup_Some in Ha as [Ha Hq]. rewrite (lookup_veq l2 a w) by auto. rewrite Hb. auto.
Qed.

(** The elements of [l1] that [l2] has. *)
Lemma kept_first l1 l2 r w a b : distinct l1 -> allok l1 -> allok l2 -> vok w ->
  (forall w, vok w -> lookup r w = lookup (filter (fun e => Bool.eqb (isSome (lookup l2 e)) true) l1) w) ->
  lookup l1 w = Some a -> lookup l2 w = Some b -> lookup r w = Some a.
Proof.
  intros Hd Ho1 Ho2 Hw Hr Ha Hb. rewrite Hr, lookup_filter by auto. rewrite Ha.
  rewrite (lookup_has l1 l2 w a b) by auto. reflexivity.
Qed.

Lemma leaf1_picks fuel d a n2 o m : wf d (Leaf1 a) -> wf d n2 -> maxTreeDepth - d < fuel ->
  intersectLeaf1 fuel a n2 d = Ok (o, m) ->
  forall w x y, vok w -> lookup [a] w = Some x -> lookup (elems n2) w = Some y -> lookup (elemso o) w = Some x.
Proof.
  intros H1 H2 Hf HI w x y Hw Hx Hy. pose proof (wf_allok _ _ H1) as Ho1. pose proof (wf_allok _ _ H2) as Ho2.
  apply (kept_first [a] (elems n2) _ w x y); auto. { apply (wf_distinct _ _ H1). }
  intros w' Hw'. unfold intersectLeaf1 in HI. rewrite has_at_wf in HI by (auto; inversion H1; auto). cbn [bind] in HI.
  cbn [filter]. destruct (isSome (lookup (elems n2) a)); injection HI as <- <-; reflexivity.
Qed.

Lemma leaf2_picks fuel d a b n2 o m : wf d (Leaf2 a b) -> wf d n2 -> maxTreeDepth - d < fuel ->
  intersectLeaf2 fuel a b n2 d = Ok (o, m) ->
  forall w x y, vok w -> lookup [a; b] w = Some x -> lookup (elems n2) w = Some y -> lookup (elemso o) w = Some x.
Proof.
  intros H1 H2 Hf HI w x y Hw Hx Hy. pose proof (wf_allok _ _ H1) as Ho1. pose proof (wf_allok _ _ H2) as Ho2.
  apply (kept_first [a; b] (elems n2) _ w x y); auto. { apply (wf_distinct _ _ H1). }
  intros w' Hw'. unfold intersectLeaf2 in HI. rewrite !has_at_wf in HI by (auto; inversion H1; auto). cbn [bind] in HI.
  cbn [filter]. destruct (isSome (lookup (elems n2) a)), (isSome (lookup (elems n2) b)); injection HI as <- <-; reflexivity.
Qed.

Theorem intersection_picks fuel : forall g d n n2 o m,
  wf d n -> wf d n2 -> gaugeOk g -> fuelBin d <= fuel -> intersection fuel g n n2 d = Ok (o, m) ->
  picks d (elems n) (elems n2) (elemso o).
Proof.
  induction fuel as [|fuel IH]; intros g d n n2 o m Hwf1 Hwf2 Hg Hf HI; [unfold fuelBin in Hf; lia|].
  unfold fuelBin in Hf.
  pose proof (wf_allok _ _ Hwf1) as Hok1. pose proof (wf_distinct _ _ Hwf1) as Hdis1.
  pose proof (wf_allok _ _ Hwf2) as Hok2. pose proof (wf_distinct _ _ Hwf2) as Hdis2.
  destruct n as [a|a b|l|m1 d1].
  - cbn [intersection] in HI. intros w x y Hw Hx Hy. split; intros Hs.
    + exfalso. revert Hs. apply sooner_small. simpl. lia.
    + exact (leaf1_picks fuel d a n2 o m Hwf1 Hwf2 ltac:(lia) HI w x y Hw Hx Hy).
  - cbn [intersection] in HI. intros w x y Hw Hx Hy. split; intros Hs.
    + exfalso. revert Hs. apply sooner_small. simpl. lia.
    + exact (leaf2_picks fuel d a b n2 o m Hwf1 Hwf2 ltac:(lia) HI w x y Hw Hx Hy).
  - inversion Hwf1; subst. cbn [intersection] in HI. rewrite filterGet_spec in HI by (auto; lia). cbn [bind] in HI.
    destruct (canonicalTwig_wf (vok := vok) maxTreeDepth fuel
      (filter (fun e => Bool.eqb (isSome (lookup (elems n2) e)) true) l)) as (o' & Eo & Ho & Hl & Hlen);
      auto using distinct_filter, allok_filter; try lia.
    rewrite Eo in HI. cbn [bind] in HI. injection HI as <- <-. intros w x y Hw Hx Hy. split; intros Hs.
    + destruct Hs as (k & Hk & _). lia.
    + apply (kept_first l (elems n2) _ w x y); auto.
  - inversion Hwf1 as [| | |d' m' data' Hd Hlen1 Hm1 Hch1 Hp1 Hl1]; subst d' m' data'.
    destruct n2 as [x|x y|l2|m2 d2].
    + cbn [intersection] in HI. intros w u v Hw Hu Hv. split; intros Hs.
      * exact (leaf1_picks fuel d x (Branch m1 d1) o m Hwf2 Hwf1 ltac:(lia) HI w v u Hw Hv Hu).
      * exfalso. apply Hs, sooner_now; simpl in *; auto; lia.
    + cbn [intersection] in HI. intros w u v Hw Hu Hv. split; intros Hs.
      * exact (leaf2_picks fuel d x y (Branch m1 d1) o m Hwf2 Hwf1 ltac:(lia) HI w v u Hw Hv Hu).
      * exfalso. apply Hs, sooner_now; simpl in *; auto; lia.
    + inversion Hwf2; subst. lia.
    + inversion Hwf2 as [| | |d' m' data' _ Hlen2 Hm2 Hch2 Hp2 Hl2]; subst d' m' data'.
      cbn [intersection] in HI.
      set (w := fun i => match child d1 i, child d2 i with
                         | Some x, Some y => intersection fuel (g_sub i g) x y (S d)
                         | _, _ => Ok (None, 0%Z)
                         end).
      match type of HI with context [parallel _ _ _ ?F emptyPacker] => set (f := F) in HI end.
      assert (Htb : forall i, N.testbit (N.land m1 m2) (N.of_nat i) =
                (isSome (child d1 i) && isSome (child d2 i))%bool).
      { intros i. rewrite Hm1, Hm2, N.land_spec, !updateMask_testbit by auto. auto. }
      assert (Hml : (N.land m1 m2 < 2 ^ 16)%N).
      { apply lt_pow_land. subst m1. apply updateMask_lt. }
      destruct (par_canonical fuel g d (N.land m1 m2) f w
        (fun i o m => picks (S d) (elemso (child d1 i)) (elemso (child d2 i)) (elemso o)))
        as (o' & data' & ms & E1 & Ho & He & Hlen & Hp & Hokd & HP); auto.
      { intros i Hi. rewrite Htb. rewrite child_overflow by lia. auto. }
      { intros i s Hi. unfold w, f. apply mask_indices_In in Hi as [_ Hi]; auto. rewrite Htb in Hi.
        destruct (child d1 i) as [x|]; [|discriminate]. destruct (child d2 i) as [y|]; [|discriminate].
        exists (fun m => m). destruct (intersection _ _ _ _ _) as [[r m']| |]; reflexivity. }
      { intros i Hi Ht. rewrite Htb in Ht. unfold w.
        destruct (child d1 i); destruct (child d2 i); auto; discriminate. }
      { intros i Hi. unfold w. destruct (child d1 i) as [x|] eqn:E1; destruct (child d2 i) as [y|] eqn:E2.
        - assert (Hg' : gaugeOk (g_sub i g)) by (apply gaugeOk_sub; auto).
          assert (Hf' : fuelBin (S d) <= fuel) by (unfold fuelBin; lia).
          destruct (intersection_wf (vok := vok) fuel (g_sub i g) (S d) x y) as (o0 & m0 & Eo & Ho & Hres); eauto.
          exists o0, m0. split; auto. split; auto. split.
          + intros e He.
            assert (allok (elemso o0) /\ distinct (elemso o0)) as [HA HB].
            { destruct o0 as [c|]; [|split; [intros z []|constructor]].
              split; [eapply wf_allok|eapply wf_distinct]; apply Ho; auto. }
            destruct (intres_in _ _ _ _ e HB HA Hres He) as [He'|He'].
            * apply (Hp1 i). rewrite E1; auto.
            * apply (Hp2 i). rewrite E2; auto.
          + simpl. eapply IH; eauto.
        - exists None, 0%Z. split; auto. split; [apply wfo_None|]. split; [intros e []|]. intros ? ? ? ? ? [=].
        - exists None, 0%Z. split; auto. split; [apply wfo_None|]. split; [intros e []|]. intros ? ? ? ? [=].
        - exists None, 0%Z. split; auto. split; [apply wfo_None|]. split; [intros e []|]. intros ? ? ? ? [=]. }
      rewrite E1 in HI. injection HI as <- <-.
      rewrite He, !elems_branch in *. intros w0 a b Hw0 Ha Hb.
      rewrite sooner_step by auto. rewrite (lookup_placed d data') by auto.
      rewrite (lookup_placed d d1) in Ha by auto. rewrite (lookup_placed d d2) in Hb by auto.
      apply HP; auto. apply digit_lt.
Qed.

(** The same for whole trees: the first operand is the smaller one. *)
Lemma t_intersection_picks g t u r : tok vok t -> tok vok u -> gaugeOk g -> t_intersection g t u = Ok r ->
  if (t_count u <? t_count t)%Z then picks 0 (tel u) (tel t) (tel r) else picks 0 (tel t) (tel u) (tel r).
Proof.
  intros Ht Hu Hg HI. unfold t_intersection, tel in *. pose proof Ht as [Hwt _]. pose proof Hu as [Hwu _]. unfold tel in *.
  destruct (t_root t) as [n|] eqn:Et; [destruct (t_root u) as [n2|] eqn:Eu|].
  - destruct (t_count u <? t_count t)%Z.
    + destruct (intersection treeFuel g n2 n 0) as [[o m]| |] eqn:EI; try discriminate. injection HI as <-.
      simpl. eapply intersection_picks; eauto using fuelBin_tree.
    + destruct (intersection treeFuel g n n2 0) as [[o m]| |] eqn:EI; try discriminate. injection HI as <-.
      simpl. eapply intersection_picks; eauto using fuelBin_tree.
  - destruct (_ <? _)%Z; [intros ? ? ? ? [=]|intros ? ? ? ? ? [=]].
  - destruct (_ <? _)%Z; [intros ? ? ? ? ? [=]|intros ? ? ? ? [=]].
Qed.
End NodeRep.
