(** * NodeUn: Where, Reduce, Vet, depth. *)
From Verif Require Import Base Bits Env EnvFacts Node NodeWf NodeAdd NodeRemove NodeBin NodeBin2.

Section NodeUn.
Local Opaque maxTreeDepth fanout fb.
Context {E : Env} {T : Type} {K : Key T} {vok : T -> Prop} {KO : KeyOk K vok}.
Notation node := (node T).
Notation wf := (wf vok).
Notation pre := (pre vok).
Notation allok := (allok vok).

(** ** Lists of children *)

Lemma flat_map_child {A} (f : option node -> list A) data n :
  length data = n -> flat_map f data = flat_map (fun i => f (child data i)) (seq 0 n).
Proof.
  intros <-. induction data as [|o data IH]; simpl; auto. f_equal.
  rewrite IH, <- seq_shift, !flat_map_concat_map, map_map. reflexivity.
Qed.

Lemma filter_flat_map {A B} (p : B -> bool) (f : A -> list B) l :
  filter p (flat_map f l) = flat_map (fun a => filter p (f a)) l.
Proof.
  induction l as [|a l IH]; simpl; auto. rewrite filter_app, IH. reflexivity.
Qed.

Lemma flat_map_ext_in {A B} (f g : A -> list B) l :
  (forall a, In a l -> f a = g a) -> flat_map f l = flat_map g l.
Proof.
  intros H. induction l as [|a l IH]; simpl; auto.
  rewrite H by (left; auto). f_equal. apply IH. intros; apply H; right; auto.
Qed.

Lemma canonicalTwig_elems fuel d l :
  maxTreeDepth <= d -> exists o, canonicalTwig fuel d l = Ok o /\ elemso o = l.
Proof.
  intros Hd. destruct l as [|a [|b [|c l]]]; try (eexists; split; reflexivity).
  rewrite canonicalTwig_max by (simpl; lia). eexists; split; reflexivity.
Qed.

(** ** Where *)

Theorem where_wf fuel : forall g d pred n,
  wf d n -> gaugeOk g -> fuelBin d <= fuel ->
  exists o, where_ fuel g pred n d = Ok (o, Z.of_nat (length (filter pred (elems n)))) /\ wfo vok d o /\
    elemso o = filter pred (elems n).
Proof.
  induction fuel as [|fuel IH]; intros g d pred n Hwf Hg Hf; [unfold fuelBin in Hf; lia|].
  unfold fuelBin in Hf. destruct n as [a|a b|l|m1 d1].
  - inversion Hwf; subst. cbn [where_]. simpl. destruct (pred a); eexists; (split; [reflexivity|]).
    + split; auto. apply wfo_Some; auto.
    + split; auto. apply wfo_None.
  - inversion Hwf; subst. cbn [where_]. simpl. destruct (pred a), (pred b); eexists; (split; [reflexivity|]);
      (split; [first [apply wfo_None | apply wfo_Some; first [assumption | constructor; auto]]|reflexivity]).
  - inversion Hwf; subst. cbn [where_].
    destruct (canonicalTwig_wf (vok := vok) maxTreeDepth fuel (filter pred l)) as (o & Eo & Ho & _);
      auto using distinct_filter, allok_filter; try lia.
    destruct (canonicalTwig_elems fuel maxTreeDepth (filter pred l)) as (o' & Eo' & Ho'); auto.
    rewrite Eo in Eo'. inversion Eo'; subst o'.
    rewrite Eo. cbn [bind]. eexists. split; [reflexivity|]. split; auto.
  - inversion Hwf as [| | |d' m' data' Hd Hlen1 Hm1 Hch1 Hp1 Hl1]; subst d' m' data'.
    cbn [where_].
    set (w := fun i => match child d1 i with
                       | None => Ok (None, 0%Z)
                       | Some x => where_ fuel (g_sub i g) pred x (S d)
                       end).
    match goal with |- context [parallel _ _ _ ?F emptyPacker] => set (f := F) end.
    destruct (par_canonical (vok := vok) fuel g d m1 f w
      (fun i o m => elemso o = filter pred (elemso (child d1 i)) /\ m = leno o))
      as (o & data' & ms & E1 & Ho & He & Hlen & Hp & Hokd & HP); auto.
    { subst m1. apply updateMask_lt. }
    { intros i Hi. subst m1. apply mask_ge_fanout; auto. }
    { intros i s Hi. unfold w, f. rewrite Hm1 in Hi. apply mask_indices_updateMask in Hi as (x & Ex); auto.
      rewrite Ex. exists (fun m => m). destruct (where_ _ _ _ _ _) as [[r m]| |]; reflexivity. }
    { intros i Hi Ht. rewrite Hm1, updateMask_testbit in Ht by auto. unfold w.
      destruct (child d1 i); [discriminate|]. auto. }
    { intros i Hi. unfold w. destruct (child d1 i) as [x|] eqn:Ex.
      - destruct (IH (g_sub i g) (S d) pred x) as (o & Eo & Ho & Hres); eauto.
        { apply gaugeOk_sub; auto. }
        { unfold fuelBin; lia. }
        eexists _, _. split; [exact Eo|]. split; auto. split; auto.
        + intros e He. apply (Hp1 i). rewrite Ex. simpl. rewrite Hres in He. apply filter_In in He as [He _]; auto.
        + split; auto. unfold leno. rewrite Hres. reflexivity.
      - exists None, 0%Z. split; auto. split; [apply wfo_None|]. split; [intros e []|]. split; reflexivity. }
    rewrite E1, elems_branch. exists o.
    assert (Hel : flat_map elemso data' = filter pred (flat_map elemso d1)).
    { rewrite (flat_map_child _ data' fanout), (flat_map_child _ d1 fanout), filter_flat_map by auto.
      apply flat_map_ext_in. intros i Hi. apply in_seq in Hi. apply HP; lia. }
    split; [|split; [auto|congruence]]. do 2 f_equal. rewrite <- Hel, (length_branch data' fanout) by auto.
    apply sumZ_ext. intros i Hi. apply in_seq in Hi. apply HP. lia.
Qed.

(** ** Reduce *)

(** The value computed by [Reduce] for any reducer, as a recursion on the shape. *)
Fixpoint red (r : list T -> T) (n : node) : T :=
  match n with
  | Leaf1 a => r [a]
  | Leaf2 a b => r [a; b]
  | Twig l => r l
  | Branch _ data =>
      r ((fix go (ds : list (option node)) : list T :=
         match ds with
         | [] => []
         | None :: ds' => go ds'
         | Some c :: ds' => red r c :: go ds'
         end) data)
  end.

Definition redo (r : list T -> T) (o : option node) : list T :=
  match o with Some c => [red r c] | None => [] end.

Lemma red_branch r m data : red r (Branch m data) = r (flat_map (redo r) data).
Proof.
  cbn [red]. f_equal. induction data as [|[c|] data IH]; simpl; auto. f_equal; auto.
Qed.

Lemma par_fill (g : nat -> res T) (f : nat -> list (option T) -> res (bool * Z * list (option T))) order acc s :
  (forall i s, In i order -> f i s = bind (g i) (fun t => Ok (true, 0%Z, set_nth s i (Some t)))) ->
  (forall i, In i order -> i < length s) ->
  (forall i, In i order -> exists t, g i = Ok t) ->
  exists s' m, par_loop f order acc s = Ok (true, m, s') /\ length s' = length s /\
    (forall i t, In i order -> g i = Ok t -> nth i s' None = Some t).
Proof.
  revert acc s. induction order as [|i order IH]; intros acc s Hf Hlt Hg; cbn [par_loop].
  - eexists s, _. split; [reflexivity|]. split; auto. intros i t [].
  - destruct (Hg i) as (t & Et); [left; auto|]. rewrite Hf by (left; auto). rewrite Et. cbn [bind].
    destruct (IH (acc + 0)%Z (set_nth s i (Some t))) as (s' & m & E1 & Hl & Hs).
    + intros j s0 Hj. apply Hf; right; auto.
    + intros j Hj. rewrite set_nth_length. apply Hlt; right; auto.
    + intros j Hj. apply Hg; right; auto.
    + exists s', m. split; auto. rewrite set_nth_length in Hl. split; auto.
      intros j t' [<-|Hj] Ej; [|eauto].
      destruct (in_dec Nat.eq_dec i order) as [Hi|Hi]; [eauto|].
      (* slot i is written only here *)
      rewrite Et in Ej. inversion Ej; subst t'. clear IH Hs.
      assert (Hkeep : forall order acc s s' m, ~ In i order ->
        (forall j s, In j order -> f j s = bind (g j) (fun t => Ok (true, 0%Z, set_nth s j (Some t)))) ->
        par_loop f order acc s = Ok (true, m, s') -> nth i s' None = nth i s None).
      { clear. induction order as [|j order IH]; intros acc s s' m Hi Hf E1; cbn [par_loop] in E1.
        - inversion E1; subst; auto.
        - rewrite Hf in E1 by (left; auto). destruct (g j) as [t| |]; cbn [bind] in E1; try discriminate.
          apply IH in E1; [|intros H; apply Hi; right; auto|intros k s0 Hk; apply Hf; right; auto].
          rewrite E1. apply nth_set_nth_ne. intros ->. apply Hi; left; auto. }
      erewrite Hkeep by (eauto; intros j s0 Hj; apply Hf; right; auto).
      apply nth_set_nth_eq. apply Hlt; left; auto.
Qed.

Lemma foldM_collect (results : list (option T)) (h : nat -> T) order acc :
  (forall i, In i order -> nth i results None = Some (h i)) ->
  foldM (fun acc i => match nth i results None with Some t => Ok (acc ++ [t]) | None => Panic end) acc order
  = Ok (acc ++ map h order).
Proof.
  revert acc; induction order as [|i order IH]; intros acc H; cbn [foldM map].
  - rewrite app_nil_r; auto.
  - rewrite H by (left; auto). cbn [bind]. rewrite IH by (intros; apply H; right; auto).
    rewrite <- app_assoc. reflexivity.
Qed.

(** The children named by a mask, in mask order, are the children in array order. *)
Lemma flat_map_mask {A} (f : option node -> list A) data :
  length data = fanout -> f None = [] ->
  flat_map (fun i => f (child data i)) (mask_indices (updateMask data)) = flat_map f data.
Proof.
  intros Hlen Hn. rewrite (flat_map_child f data fanout) by auto.
  rewrite mask_indices_spec by apply updateMask_lt. unfold one_bits.
  assert (Hf : forall l, flat_map (fun i => f (child data i))
      (filter (fun i => N.testbit (updateMask data) (N.of_nat i)) l) = flat_map (fun i => f (child data i)) l).
  { intros l. induction l as [|i l IH]; simpl; auto.
    rewrite updateMask_testbit by auto. destruct (child data i) as [c|] eqn:Ec; simpl.
    - rewrite Ec, IH. reflexivity.
    - rewrite IH, Hn. reflexivity. }
  rewrite Hf. pose proof fanout_le as Hle.
  replace 16 with (fanout + (16 - fanout)) by lia. rewrite seq_app, flat_map_app.
  rewrite (flat_map_ext_in (fun i => f (child data i)) (fun _ => []) (seq (0 + fanout) (16 - fanout))).
  - assert (forall l : list nat, flat_map (fun _ => @nil A) l = []) as -> by (intros l; induction l; auto).
    apply app_nil_r.
  - intros i Hi. apply in_seq in Hi. rewrite child_overflow by lia. auto.
Qed.

Theorem reduce_wf fuel : forall g d r n,
  wf d n -> gaugeOk g -> maxTreeDepth - d < fuel -> reduce fuel g r n d = Ok (red r n).
Proof.
  induction fuel as [|fuel IH]; intros g d r n Hwf Hg Hf; [lia|].
  destruct n as [a|a b|l|m1 d1]; auto.
  inversion Hwf as [| | |d' m' data' Hd Hlen1 Hm1 Hch1 Hp1 Hl1]; subst d' m' data'.
  cbn [reduce]. unfold parallel.
  set (w := fun i => match child d1 i with None => Panic | Some x => reduce fuel (g_sub i g) r x (S d) end).
  match goal with |- context [par_loop ?F _ _ _] => set (f := F) end.
  pose proof (par_order_perm g d m1 Hg) as HP.
  assert (Hin : forall i, In i (par_order g d m1) <-> exists x, child d1 i = Some x).
  { intros i. rewrite <- mask_indices_updateMask by auto. rewrite <- Hm1. split; apply Permutation_in; auto.
    symmetry; auto. }
  assert (Hw : forall i x, child d1 i = Some x -> w i = Ok (red r x)).
  { intros i x Hx. unfold w. rewrite Hx. apply IH; eauto; [apply gaugeOk_sub; auto|lia]. }
  destruct (par_fill w f (par_order g d m1) 0%Z (repeat None fanout)) as (s' & m & E1 & Hl & Hs).
  { intros i s Hi. apply Hin in Hi as (x & Ex). unfold f, w. rewrite Ex. reflexivity. }
  { intros i Hi. apply Hin in Hi as (x & Ex). rewrite repeat_length.
    destruct (Nat.lt_ge_cases i fanout); auto. rewrite child_overflow in Ex by lia. discriminate. }
  { intros i Hi. apply Hin in Hi as (x & Ex). eauto. }
  rewrite E1. cbn [bind].
  destruct (list_eq_dec Nat.eq_dec (mask_indices m1) []) as [Hnil|Hnil].
  - rewrite Hnil. simpl foldM. cbn [bind]. rewrite red_branch, <- flat_map_mask by auto.
    rewrite <- Hm1, Hnil. reflexivity.
  - assert (Hex : exists i x, child d1 i = Some x).
    { destruct (mask_indices m1) as [|i l] eqn:Em; [congruence|]. exists i.
      apply mask_indices_updateMask; auto. rewrite <- Hm1, Em. left; auto. }
    destruct Hex as (i0 & x0 & Ex0).
    rewrite (foldM_collect s' (fun i => match child d1 i with Some x => red r x | None => red r x0 end)).
    + cbn [bind app]. rewrite red_branch, <- flat_map_mask by auto. rewrite <- Hm1.
      f_equal. f_equal.
      assert (forall i, In i (mask_indices m1) -> exists x, child d1 i = Some x) as Hc.
      { intros i Hi. apply mask_indices_updateMask; auto. rewrite <- Hm1; auto. }
      clear - Hc. induction (mask_indices m1) as [|i l IHl]; simpl; auto.
      destruct (Hc i) as (x & Ex); [left; auto|]. rewrite Ex. simpl. f_equal. apply IHl.
      intros; apply Hc; right; auto.
    + intros i Hi. assert (Hi' : In i (par_order g d m1)) by (eapply Permutation_in; [symmetry|]; eauto).
      apply Hin in Hi' as (x & Ex). rewrite Ex. apply Hs; auto. apply Hin; eauto.
Qed.

(** A reducer that may be applied piecewise: n-ary associativity. *)
Definition assocRed (r : list T -> T) : Prop :=
  forall ls, ls <> [] -> (forall l, In l ls -> l <> []) -> r (map r ls) = r (concat ls).

Lemma red_assoc r d n : assocRed r -> wf d n -> red r n = r (elems n).
Proof.
  intros Hr Hwf. induction Hwf as [d a Hd Ha|d a b Hd Ha Hb Hab|d l Hd Hl Hok Hdis|d m data Hd Hlen Hm Hc IH Hp Hl];
    try reflexivity.
  rewrite red_branch, elems_branch.
  set (cs := flat_map (fun o => match o with Some c => [c] | None => [] end) data).
  assert (Hcs : forall c, In c cs -> exists i, child data i = Some c).
  { intros c Hin. unfold cs in Hin. apply in_flat_map in Hin as (o & Ho & Hin).
    destruct o as [c'|]; [|contradiction]. destruct Hin as [->|[]].
    apply In_nth with (d := None) in Ho as (i & _ & Ei). exists i; auto. }
  assert (E1 : flat_map (redo r) data = map r (map elems cs)).
  { unfold cs. assert (forall c, In c cs -> red r c = r (elems c)) as Hred.
    { intros c Hin. apply Hcs in Hin as (i & Ei). eauto. }
    unfold cs in Hred. clear - Hred. induction data as [|[c|] data IH]; simpl in *; auto. f_equal; auto. }
  assert (E2 : flat_map elemso data = concat (map elems cs)).
  { unfold cs. clear. induction data as [|[c|] data IH]; simpl; auto. f_equal; auto. }
  rewrite E1, E2. apply Hr.
  - intros Hnil. rewrite elems_branch, E2, Hnil in Hl. simpl in Hl. lia.
  - intros l Hin. apply in_map_iff in Hin as (c & <- & Hin). apply Hcs in Hin as (i & Ei).
    eapply wf_nonnil. eauto.
Qed.

(** The reducer is only ever applied to nonempty argument lists. *)
Lemma red_ext r r' d n : (forall l, l <> [] -> r l = r' l) -> wf d n -> red r n = red r' n.
Proof.
  intros Hr Hwf. induction Hwf as [d a Hd Ha|d a b Hd Ha Hb Hab|d l Hd Hl Hok Hdis|d m data Hd Hlen Hm Hc IH Hp Hl].
  - apply Hr; discriminate.
  - apply Hr; discriminate.
  - apply Hr. intros ->. simpl in Hl; lia.
  - rewrite !red_branch.
    assert (E1 : flat_map (redo r) data = flat_map (redo r') data).
    { apply flat_map_ext_in. intros [c|] Hin; auto. simpl. f_equal.
      apply In_nth with (d := None) in Hin as (i & _ & Ei). eapply IH; eauto. }
    rewrite E1. apply Hr. intros Hnil. rewrite elems_branch in Hl.
    assert (flat_map elemso data = []); [|rewrite H in Hl; simpl in Hl; lia].
    clear - Hnil. induction data as [|[c|] data IH]; simpl in *; auto. discriminate.
Qed.

(** ** Vet *)

(** All elements agree on the first [d] digits of their hash. *)
Definition agree (d : nat) (l : list T) : Prop :=
  forall a b k, In a l -> In b l -> k < d -> digit k a = digit k b.

Lemma agree_child d m data i c :
  wf d (Branch m data) -> agree d (elems (Branch m data)) -> child data i = Some c -> agree (S d) (elems c).
Proof.
  intros Hwf Ha Hc a b k Hina Hinb Hk.
  inversion Hwf as [| | |d' m' data' Hd Hlen1 Hm1 Hch1 Hp1 Hl1]; subst d' m' data'.
  rewrite elems_branch in Ha.
  assert (Hi : forall e, In e (elems c) -> In e (flat_map elemso data) /\ digit d e = i).
  { intros e He. assert (In e (elemso (child data i))) by (rewrite Hc; auto).
    split; [apply in_flat_map_child; eauto|]. apply Hp1; auto. }
  destruct (Hi a Hina), (Hi b Hinb).
  destruct (Nat.eq_dec k d) as [->|Hne]; [congruence|]. apply Ha; auto. lia.
Qed.

Lemma agree_hash a b : vok a -> vok b -> agree maxTreeDepth [a; b] -> vhash a 0 = vhash b 0.
Proof.
  intros Ha Hb H. apply digits_hash; try (apply vhash_range; auto).
  intros k Hk. apply H; simpl; auto.
Qed.

Theorem vet_wf fuel : forall d n,
  wf d n -> agree d (elems n) -> maxTreeDepth - d < fuel ->
  vet fuel n = Ok (Z.of_nat (length (elems n))).
Proof.
  induction fuel as [|fuel IH]; intros d n Hwf Ha Hf; [lia|].
  destruct n as [a|a b|l|m1 d1]; auto.
  - inversion Hwf as [| |d' l' Hd Hl Hok Hdis|]; subst d' l'. cbn [vet elems].
    destruct (Nat.leb_spec (length l) 2); [lia|].
    destruct l as [|a l]; [simpl in *; lia|].
    replace (forallb _ l) with true; auto. symmetry. apply forallb_forall. intros e He.
    apply N.eqb_eq. unfold newHasher. f_equal. apply agree_hash; try (apply Hok; simpl; auto).
    intros x y k Hx Hy Hk. apply Ha; try lia; simpl in *; intuition (subst; auto).
  - inversion Hwf as [| | |d' m' data' Hd Hlen1 Hm1 Hch1 Hp1 Hl1]; subst d' m' data'.
    cbn [vet]. rewrite <- Hm1, N.eqb_refl.
    assert (Hfold : forall order acc, (forall i, In i order -> exists c, child d1 i = Some c) ->
      foldM (fun count i => match child d1 i with
        | Some c => m <- vet fuel c ;; Ok (count + m)%Z | None => Panic end) acc order =
      Ok (acc + sumZ (map (fun i => leno (child d1 i)) order))%Z).
    { induction order as [|i order IHo]; intros acc Hin; cbn [foldM].
      - unfold sumZ; simpl. f_equal; lia.
      - destruct (Hin i) as (c & Ec); [left; auto|]. rewrite Ec.
        rewrite (IH (S d) c); eauto; [|eapply agree_child; eauto|lia]. cbn [bind].
        rewrite IHo by (intros; apply Hin; right; auto). cbn [map]. rewrite Ec.
        unfold leno at 2. unfold sumZ; simpl. f_equal. lia. }
    rewrite Hfold.
    + rewrite elems_branch, (length_branch d1 fanout) by auto. rewrite Z.add_0_l. f_equal.
      subst m1. apply sumZ_mask.
      * apply updateMask_lt.
      * intros i Hi. apply mask_ge_fanout; auto.
      * intros i Hi Ht. rewrite updateMask_testbit in Ht by auto. unfold leno.
        destruct (child d1 i); [discriminate|reflexivity].
    + intros i Hi. apply mask_indices_updateMask; auto. rewrite <- Hm1; auto.
Qed.

(** ** Height *)

Fixpoint height (n : node) : nat :=
  match n with
  | Branch _ data =>
      S ((fix go (ds : list (option node)) : nat :=
         match ds with
         | [] => 0
         | None :: ds' => go ds'
         | Some c :: ds' => Nat.max (height c) (go ds')
         end) data)
  | _ => 0
  end.

Lemma height_wf d n : wf d n -> d + height n <= maxTreeDepth.
Proof.
  induction 1 as [d a Hd Ha|d a b Hd Ha Hb Hab|d l Hd Hl Hok Hdis|d m data Hd Hlen Hm Hc IH Hp Hl];
    try (simpl; lia).
  assert (Hin : forall c, In (Some c) data -> S d + height c <= maxTreeDepth).
  { intros c Hin. apply In_nth with (d := None) in Hin as (i & _ & Ei). eapply IH; eauto. }
  cbn [height]. clear - Hin Hd. rewrite Nat.add_succ_r. induction data as [|[c|] data IH]; simpl.
  - lia.
  - assert (S d + height c <= maxTreeDepth) by (apply Hin; left; auto).
    assert (S (d + (fix go (ds : list (option node)) : nat :=
         match ds with
         | [] => 0
         | None :: ds' => go ds'
         | Some c :: ds' => Nat.max (height c) (go ds')
         end) data) <= maxTreeDepth) by (apply IH; intros; apply Hin; right; auto). lia.
  - apply IH. intros; apply Hin; right; auto.
Qed.

End NodeUn.
