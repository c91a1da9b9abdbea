(** * NodeBin: Combine, Difference, Intersection, SubsetOf, Equal. *)
From Verif Require Import Base Bits Env EnvFacts Node NodeWf NodeAdd NodeRemove.

Section NodeBin.
Local Opaque maxTreeDepth fanout fb.
Context {E : Env} {T : Type} {K : Key T} {vok : T -> Prop} {KO : KeyOk K vok}.
Notation node := (node T).
Notation wf := (wf vok).
Notation pre := (pre vok).
Notation allok := (allok vok).
Notation addres := (addres (vok := vok)).
Notation cfok := (cfok (vok := vok)).

Definition fuelBin (d : nat) : nat := 2 * (maxTreeDepth - d) + 4.

(** ** The parallel loop over the slots of a branch *)

Lemma mask_ge_fanout (data : list (option node)) i :
  length data = fanout -> fanout <= i -> N.testbit (updateMask data) (N.of_nat i) = false.
Proof.
  intros Hl Hi. rewrite updateMask_testbit by auto. rewrite child_overflow by lia. auto.
Qed.

Lemma par_branch g d mask (f : nat -> packer T -> res (bool * Z * packer T)) (w : nat -> res (option node * Z)) :
  gaugeOk g -> (mask < 2 ^ 16)%N ->
  (forall i, fanout <= i -> N.testbit mask (N.of_nat i) = false) ->
  slot_worker w f (mask_indices mask) ->
  (forall i, i < fanout -> exists o m, w i = Ok (o, m)) ->
  (forall i, i < fanout -> N.testbit mask (N.of_nat i) = false -> w i = Ok (None, 0%Z)) ->
  exists s',
    parallel g d mask f emptyPacker =
      Ok (true, sumZ (map (fun i => outZ (w i)) (seq 0 fanout)), s') /\
    length (snd s') = fanout /\
    (forall i o m, i < fanout -> w i = Ok (o, m) -> child (snd s') i = o).
Proof.
  intros Hg Hm Hhi Hf Hok Hz. unfold parallel.
  pose proof (par_order_perm g d mask Hg) as HP.
  assert (Hin : forall i, In i (par_order g d mask) <-> i < fanout /\ N.testbit mask (N.of_nat i) = true).
  { intros i. split.
    - intros H. eapply Permutation_in in H; eauto. apply mask_indices_In in H as [_ H]; auto.
      split; auto. destruct (Nat.lt_ge_cases i fanout); auto. rewrite Hhi in H; auto. discriminate.
    - intros [H1 H2]. eapply Permutation_in; [symmetry; eauto|]. apply mask_indices_In; auto.
      split; auto. pose proof fanout_le; lia. }
  destruct (par_slots w f (par_order g d mask) 0%Z emptyPacker None) as (s' & E1 & E2 & E3 & E4).
  - intros i s Hi. apply Hf. eapply Permutation_in; eauto.
  - eapply Permutation_NoDup; [symmetry; eauto|]. apply mask_indices_NoDup; auto.
  - intros i Hi. simpl. rewrite emptyData_length. apply Hin; auto.
  - intros i Hi. apply Hok. apply Hin; auto.
  - exists s'. unfold packer in *. rewrite E1. split; [|split].
    + rewrite Z.add_0_l.
      assert (Es : sumZ (map (fun i => outZ (w i)) (par_order g d mask)) =
                   sumZ (map (fun i => outZ (w i)) (seq 0 fanout))).
      { rewrite (sumZ_perm _ (map (fun i => outZ (w i)) (mask_indices mask))).
        - apply sumZ_mask; auto. intros i Hi Ht. rewrite Hz; auto.
        - apply Permutation_map; auto. }
      rewrite Es. reflexivity.
    + rewrite E2. simpl. apply emptyData_length.
    + intros i o m Hi Hw. destruct (N.testbit mask (N.of_nat i)) eqn:Et.
      * apply (E3 i o m); auto. apply Hin; auto.
      * rewrite Hz in Hw by auto. inversion Hw; subst. unfold child.
        rewrite E4; [apply child_emptyData|]. intros H. apply Hin in H as [_ H]. congruence.
Qed.

Lemma par_branch_panic g d mask (f : nat -> packer T -> res (bool * Z * packer T)) (w : nat -> res (option node * Z)) :
  gaugeOk g -> (mask < 2 ^ 16)%N ->
  slot_worker w f (mask_indices mask) ->
  (forall i, In i (mask_indices mask) -> w i <> Fuel) ->
  (exists i, In i (mask_indices mask) /\ w i = Panic) ->
  parallel g d mask f emptyPacker = Panic.
Proof.
  intros Hg Hm Hf Hnf (i & Hi & Hp). unfold parallel.
  pose proof (par_order_perm g d mask Hg) as HP.
  apply par_slots_panic with (g := w).
  - intros j s Hj. apply Hf. eapply Permutation_in; eauto.
  - intros j Hj. apply Hnf. eapply Permutation_in; eauto.
  - exists i. split; auto. eapply Permutation_in; [symmetry|]; eauto.
Qed.

(** ** Insertion into lists, and the specification of Combine *)

Definition comb (cf : T -> T -> T) (l1 l2 : list T) (w : T) : option T :=
  match lookup l1 w, lookup l2 w with
  | Some a, Some b => Some (cf a b)
  | Some a, None => Some a
  | None, o => o
  end.

Definition combres (cf : T -> T -> T) (l1 l2 r : list T) (m : Z) : Prop :=
  (forall w, vok w -> lookup r w = comb cf l1 l2 w) /\
  (Z.of_nat (length r) + m = Z.of_nat (length l1) + Z.of_nat (length l2))%Z.

Lemma comb_flip cf l1 l2 w : comb (fun a b => cf b a) l2 l1 w = comb cf l1 l2 w.
Proof. unfold comb. destruct (lookup l1 w), (lookup l2 w); auto. Qed.

Lemma combres_flip cf l1 l2 r m :
  combres (fun a b => cf b a) l2 l1 r m -> combres cf l1 l2 r m.
Proof.
  intros [H1 H2]. split; [|lia]. intros w Hw. rewrite H1 by auto. apply comb_flip.
Qed.

(** Inserting the elements of [l2] one by one combines the lists. *)
Lemma combres_nil cf l : combres cf l [] l 0.
Proof.
  split; [|simpl; lia]. intros w Hw. unfold comb, lookup at 3; simpl. destruct (lookup l w); auto.
Qed.

Lemma upd_congr cf l v w w' : allok l -> vok v -> vok w -> vok w' -> veq w w' = true ->
  upd cf l v w = upd cf l v w'.
Proof.
  intros Hok Hv Hw Hw' Hq. unfold upd. rewrite (veq_trans_r v w w') by auto.
  destruct (veq v w'); auto. apply lookup_veq; auto.
Qed.

Lemma combres_cons cf l v l2 r m r' m' :
  allok l -> vok v -> allok l2 -> distinct (v :: l2) ->
  addres cf l v r m -> combres cf r l2 r' m' -> combres cf l (v :: l2) r' (m + m').
Proof.
  intros Hok Hv Hok2 Hd (H1 & H2 & H3) [H4 H5]. inversion Hd as [|? ? Hd1 Hd2]; subst.
  split; [|simpl; lia].
  intros w Hw. rewrite H4 by auto. unfold comb. rewrite H1 by auto. unfold upd.
  change (lookup (v :: l2) w) with (if veq v w then Some v else lookup l2 w).
  destruct (veq v w) eqn:Eq; auto.
  assert (lookup l2 w = None) as ->.
  { apply lookup_None. intros e He. destruct (veq e w) eqn:Ee; auto.
    assert (veq v e = true); [|rewrite Hd1 in *; auto; discriminate].
    apply (veq_trans v w e); auto. apply veq_sym; auto. }
  rewrite (lookup_veq l v w) by auto. destruct (lookup l w); auto.
Qed.

Lemma combres_one cf l v r m :
  allok l -> vok v -> addres cf l v r m -> combres cf l [v] r m.
Proof.
  intros Hok Hv Ha. replace m with (m + 0)%Z by lia.
  eapply combres_cons; eauto.
  - intros e [].
  - repeat constructor. intros b [].
  - apply combres_nil.
Qed.

Definition ins (cf : T -> T -> T) (l : list T) (v : T) : list T :=
  match replaceFirst (fun e => veq e v) (fun e => cf e v) l with
  | Some l' => l'
  | None => l ++ [v]
  end.

Lemma ins_spec cf l v :
  cfok cf -> distinct l -> allok l -> vok v ->
  addres cf l v (ins cf l v) (hit l v) /\ distinct (ins cf l v) /\ allok (ins cf l v).
Proof.
  intros Hcf Hd Hok Hv. unfold ins.
  destruct (replaceFirst _ _ l) as [l'|] eqn:Er.
  - apply replaceFirst_Some in Er as (l1 & e & l2 & -> & -> & Hf).
    assert (hit (l1 ++ e :: l2) v = 1%Z) as -> by (unfold hit, lookup; rewrite Hf; auto).
    apply find_some in Hf as [_ Hq].
    split; [apply addres_replace; auto|]. apply replace_ok; auto.
  - apply replaceFirst_None in Er.
    assert (hit l v = 0%Z) as -> by (unfold hit, lookup; rewrite Er; auto).
    split; [apply addres_snoc; auto|]. split.
    + apply snoc_distinct; auto. apply lookup_None; auto.
    + apply allok_app; split; auto. intros e [<-|[]]; auto.
Qed.

Lemma ins2_spec cf l a b :
  cfok cf -> distinct l -> allok l -> vok a -> vok b -> veq a b = false ->
  let L := ins cf (ins cf l a) b in
  combres cf l [a; b] L (hit l a + hit (ins cf l a) b) /\ distinct L /\ allok L.
Proof.
  intros Hcf Hd Hok Ha Hb Hab L.
  destruct (ins_spec cf l a) as (H1 & H2 & H3); auto.
  destruct (ins_spec cf (ins cf l a) b) as (H4 & H5 & H6); auto.
  split; auto. eapply combres_cons; eauto.
  - intros e [<-|[]]; auto.
  - constructor; [intros x [<-|[]]; auto|]. repeat constructor. intros x [].
  - apply combres_one; auto.
Qed.

Lemma combres_ext cf l1 l2 r r' m :
  (forall w, vok w -> lookup r w = lookup r' w) -> length r = length r' ->
  combres cf l1 l2 r' m -> combres cf l1 l2 r m.
Proof.
  intros H1 H2 [H3 H4]. split; [|lia]. intros w Hw. rewrite H1 by auto. auto.
Qed.

(** ** Leaves *)

Lemma leaf2_wf d a b : d <= maxTreeDepth -> distinct [a; b] -> allok [a; b] -> wf d (Leaf2 a b).
Proof.
  intros Hd Hdis Hok. inversion Hdis as [|? ? Hab _]; subst. constructor; auto.
  - apply Hok; left; auto.
  - apply Hok; right; left; auto.
  - apply Hab; left; auto.
Qed.


Lemma combineLeaf1_wf args d a b :
  c_eq args = veq -> cfok (c_f args) -> d <= maxTreeDepth -> vok a -> vok b ->
  wf d (fst (combineLeaf1 args a b)) /\
  combres (c_f args) [a] [b] (elems (fst (combineLeaf1 args a b))) (snd (combineLeaf1 args a b)).
Proof.
  intros Heq Hcf Hd Ha Hb. unfold combineLeaf1. rewrite Heq.
  assert (Hok1 : allok [a]) by (intros e [<-|[]]; auto).
  assert (Hd1 : distinct [a]) by (repeat constructor; intros x []).
  destruct (veq a b) eqn:Eq; simpl.
  - split.
    + constructor; auto. apply Hcf; auto.
    + apply combres_one; auto. apply (addres_replace (c_f args) [] a [] b); auto.
  - split.
    + constructor; auto.
    + apply combres_one; auto. apply (addres_snoc (c_f args) [a] b); auto.
      unfold lookup; simpl; rewrite Eq; auto.
Qed.

Lemma combineLeaf21_wf fuel args d l0 l1 nd :
  c_eq args = veq -> cfok (c_f args) -> d <= maxTreeDepth ->
  2 * (maxTreeDepth - d) <= fuel ->
  vok l0 -> vok l1 -> veq l0 l1 = false -> vok nd ->
  exists r m, combineLeaf21 fuel args d l0 l1 nd = Ok (r, m) /\ wf d r /\
    combres (c_f args) [l0; l1] [nd] (elems r) m.
Proof.
  intros Heq Hcf Hd Hf H0 H1 H01 Hn. unfold combineLeaf21. rewrite Heq.
  assert (Hd2 : distinct [l0; l1]) by (repeat constructor; intros x; simpl; intuition (subst; auto)).
  assert (Hok2 : allok [l0; l1]) by (intros e [<-|[<-|[]]]; auto).
  destruct (veq l0 nd) eqn:Eq1; [|destruct (veq l1 nd) eqn:Eq2].
  - destruct (replace_ok (c_f args) [] l0 [l1] nd) as [Hr1 Hr2]; auto.
    do 2 eexists. split; [reflexivity|]. split.
    + apply leaf2_wf; auto.
    + apply combres_one; auto. apply (addres_replace (c_f args) [] l0 [l1] nd); auto.
  - destruct (replace_ok (c_f args) [l0] l1 [] nd) as [Hr1 Hr2]; auto.
    do 2 eexists. split; [reflexivity|]. split.
    + apply leaf2_wf; auto.
    + apply combres_one; auto. apply (addres_replace (c_f args) [l0] l1 [] nd); auto.
  - destruct (newBranchFrom_wf (vok := vok) d fuel [l0; l1; nd]) as (r & E1 & Hr & Hl & Hlen); auto.
    + apply distinct3; auto.
    + intros e [<-|[<-|[<-|[]]]]; auto.
    + rewrite E1. simpl. do 2 eexists. split; [reflexivity|]. split; auto.
      apply combres_one; auto.
      apply addres_perm with (r' := [l0; l1] ++ [nd]); auto.
      apply addres_snoc; auto. unfold lookup; simpl. rewrite Eq1, Eq2; auto.
Qed.

Lemma combineLeaf2_wf fuel args d l0 l1 n0 n1 :
  c_eq args = veq -> cfok (c_f args) -> d <= maxTreeDepth ->
  2 * (maxTreeDepth - d) <= fuel ->
  vok l0 -> vok l1 -> veq l0 l1 = false -> vok n0 -> vok n1 -> veq n0 n1 = false ->
  exists r m, combineLeaf2 fuel args d l0 l1 n0 n1 = Ok (r, m) /\ wf d r /\
    combres (c_f args) [l0; l1] [n0; n1] (elems r) m.
Proof.
  intros Heq Hcf Hd Hf H0 H1 H01 Hn0 Hn1 Hn01.
  assert (Hd2 : distinct [l0; l1]) by (repeat constructor; intros x; simpl; intuition (subst; auto)).
  assert (Hok2 : allok [l0; l1]) by (intros e [<-|[<-|[]]]; auto).
  destruct (ins2_spec (c_f args) [l0; l1] n0 n1) as (HL & HdL & HokL); auto.
  set (cf := c_f args) in *.
  assert (Hn10 : veq n1 n0 = false) by (apply veq_false_sym; auto).
  assert (Hl10 : veq l1 l0 = false) by (apply veq_false_sym; auto).
  (* results that list a permutation of L with the right count *)
  assert (Hperm : forall data m, Permutation (ins cf (ins cf [l0; l1] n0) n1) data ->
      m = (hit [l0; l1] n0 + hit (ins cf [l0; l1] n0) n1)%Z -> 3 <= length data ->
      exists r, newBranchFrom fuel d data = Ok r /\ wf d r /\ combres cf [l0; l1] [n0; n1] (elems r) m).
  { intros data m HP Hm Hlen.
    destruct (newBranchFrom_wf (vok := vok) d fuel data) as (r & E1 & Hr & Hl & Hlen'); auto.
    - eapply distinct_perm; eauto.
    - eapply allok_perm; eauto.
    - exists r. split; auto. split; auto. subst m.
      apply combres_ext with (r' := ins cf (ins cf [l0; l1] n0) n1); auto.
      + intros w Hw. rewrite Hl by auto. symmetry. apply lookup_perm; auto.
      + rewrite Hlen'. symmetry. apply Permutation_length; auto. }
  unfold combineLeaf2, combineLeaf2_step. rewrite Heq. fold cf.
  destruct (veq l0 n0) eqn:E00.
  - (* l0 ~ n0 *)
    destruct (Hcf l0 n0) as [Hc1 Hc2]; auto. fold cf in Hc1, Hc2.
    assert (En1 : veq (cf l0 n0) n1 = false).
    { rewrite <- Hn01. symmetry. apply veq_trans_l; auto. }
    assert (EL1 : ins cf [l0; l1] n0 = [cf l0 n0; l1]) by (unfold ins; simpl; rewrite E00; auto).
    assert (Eh : hit [l0; l1] n0 = 1%Z) by (unfold hit, lookup; simpl; rewrite E00; auto).
    rewrite EL1 in *.
    destruct (veq l1 n1) eqn:E11.
    + assert (EL : ins cf [cf l0 n0; l1] n1 = [cf l0 n0; cf l1 n1])
        by (unfold ins; simpl; rewrite En1, E11; auto).
      assert (Eh2 : hit [cf l0 n0; l1] n1 = 1%Z) by (unfold hit, lookup; simpl; rewrite En1, E11; auto).
      rewrite EL, Eh, Eh2 in *. do 2 eexists. split; [reflexivity|]. split; auto.
      apply leaf2_wf; auto.
    + assert (EL : ins cf [cf l0 n0; l1] n1 = [cf l0 n0; l1; n1])
        by (unfold ins; simpl; rewrite En1, E11; auto).
      assert (Eh2 : hit [cf l0 n0; l1] n1 = 0%Z) by (unfold hit, lookup; simpl; rewrite En1, E11; auto).
      destruct (Hperm [cf l0 n0; l1; n1] 1%Z) as (r & Er & Hr & Hc); auto.
      * rewrite EL. reflexivity.
      * rewrite Eh, Eh2; auto.
      * rewrite Er. simpl. eauto.
  - destruct (veq l1 n1) eqn:E11.
    + (* l1 ~ n1, l0 !~ n0 *)
      assert (E10 : veq l1 n0 = false).
      { rewrite <- Hn10. symmetry. apply veq_trans_l; auto. }
      assert (E01 : veq l0 n1 = false).
      { rewrite <- H01. symmetry. apply veq_trans_r; auto. }
      assert (EL1 : ins cf [l0; l1] n0 = [l0; l1; n0]) by (unfold ins; simpl; rewrite E00, E10; auto).
      assert (Eh : hit [l0; l1] n0 = 0%Z) by (unfold hit, lookup; simpl; rewrite E00, E10; auto).
      assert (EL : ins cf [l0; l1; n0] n1 = [l0; cf l1 n1; n0]) by (unfold ins; simpl; rewrite E01, E11; auto).
      assert (Eh2 : hit [l0; l1; n0] n1 = 1%Z) by (unfold hit, lookup; simpl; rewrite E01, E11; auto).
      destruct (Hperm [l0; n0; cf l1 n1] 1%Z) as (r & Er & Hr & Hc); auto.
      * rewrite EL1, EL. apply perm_skip, perm_swap.
      * rewrite Eh, EL1, Eh2; auto.
      * rewrite Er. simpl. eauto.
    + destruct (veq l0 n1) eqn:E01.
      * (* l0 ~ n1 *)
        destruct (veq l1 n0) eqn:E10.
        -- assert (EL1 : ins cf [l0; l1] n0 = [l0; cf l1 n0]) by (unfold ins; simpl; rewrite E00, E10; auto).
           assert (Eh : hit [l0; l1] n0 = 1%Z) by (unfold hit, lookup; simpl; rewrite E00, E10; auto).
           assert (EL : ins cf [l0; cf l1 n0] n1 = [cf l0 n1; cf l1 n0]) by (unfold ins; simpl; rewrite E01; auto).
           assert (Eh2 : hit [l0; cf l1 n0] n1 = 1%Z) by (unfold hit, lookup; simpl; rewrite E01; auto).
           rewrite EL1, EL, Eh, Eh2 in *. do 2 eexists. split; [reflexivity|]. split; auto.
           apply leaf2_wf; auto.
        -- assert (EL1 : ins cf [l0; l1] n0 = [l0; l1; n0]) by (unfold ins; simpl; rewrite E00, E10; auto).
           assert (Eh : hit [l0; l1] n0 = 0%Z) by (unfold hit, lookup; simpl; rewrite E00, E10; auto).
           assert (EL : ins cf [l0; l1; n0] n1 = [cf l0 n1; l1; n0]) by (unfold ins; simpl; rewrite E01; auto).
           assert (Eh2 : hit [l0; l1; n0] n1 = 1%Z) by (unfold hit, lookup; simpl; rewrite E01; auto).
           destruct (Hperm [cf l0 n1; l1; n0] 1%Z) as (r & Er & Hr & Hc); auto.
           ++ rewrite EL1, EL. reflexivity.
           ++ rewrite Eh, EL1, Eh2; auto.
           ++ rewrite Er. simpl. eauto.
      * destruct (veq l1 n0) eqn:E10.
        -- (* l1 ~ n0 only *)
           destruct (Hcf l1 n0) as [Hc1 Hc2]; auto. fold cf in Hc1, Hc2.
           assert (En1 : veq (cf l1 n0) n1 = false).
           { rewrite <- Hn01. symmetry. apply veq_trans_l; auto. }
           assert (EL1 : ins cf [l0; l1] n0 = [l0; cf l1 n0]) by (unfold ins; simpl; rewrite E00, E10; auto).
           assert (Eh : hit [l0; l1] n0 = 1%Z) by (unfold hit, lookup; simpl; rewrite E00, E10; auto).
           assert (EL : ins cf [l0; cf l1 n0] n1 = [l0; cf l1 n0; n1]) by (unfold ins; simpl; rewrite E01, En1; auto).
           assert (Eh2 : hit [l0; cf l1 n0] n1 = 0%Z) by (unfold hit, lookup; simpl; rewrite E01, En1; auto).
           destruct (Hperm [l0; n1; cf l1 n0] 1%Z) as (r & Er & Hr & Hc); auto.
           ++ rewrite EL1, EL. apply perm_skip, perm_swap.
           ++ rewrite Eh, EL1, Eh2; auto.
           ++ rewrite Er. simpl. eauto.
        -- assert (EL1 : ins cf [l0; l1] n0 = [l0; l1; n0]) by (unfold ins; simpl; rewrite E00, E10; auto).
           assert (Eh : hit [l0; l1] n0 = 0%Z) by (unfold hit, lookup; simpl; rewrite E00, E10; auto).
           assert (EL : ins cf [l0; l1; n0] n1 = [l0; l1; n0; n1]) by (unfold ins; simpl; rewrite E01, E11, Hn01; auto).
           assert (Eh2 : hit [l0; l1; n0] n1 = 0%Z) by (unfold hit, lookup; simpl; rewrite E01, E11, Hn01; auto).
           destruct (Hperm [l0; l1; n0; n1] 0%Z) as (r & Er & Hr & Hc); auto.
           ++ rewrite EL1, EL. reflexivity.
           ++ rewrite Eh, EL1, Eh2; auto.
           ++ simpl; lia.
           ++ rewrite Er. simpl. eauto.
Qed.

(** ** Twigs: Combine of two twigs always panics *)

Definition isBranch (n : node) : bool := match n with Branch _ _ => true | _ => false end.

Definition flat (n : node) : Prop :=
  exists m data, n = Branch m data /\ forall i c, child data i = Some c -> isBranch c = false.

Lemma add_nonbranch fuel args c v d h :
  isBranch c = false -> maxTreeDepth <= d ->
  exists r m, add (S fuel) args c v d h = Ok (r, m) /\ isBranch r = false.
Proof.
  intros Hc Hd. destruct c as [a|a b|l|mk data]; simpl in Hc; try discriminate; simpl.
  - destruct (c_eq args a v); do 2 eexists; split; reflexivity.
  - destruct (c_eq args a v); [do 2 eexists; split; reflexivity|].
    destruct (c_eq args b v); [do 2 eexists; split; reflexivity|].
    unfold newBranchFrom, newBranchFrom_with.
    destruct (Nat.leb_spec maxTreeDepth d); [|lia]. simpl. do 2 eexists; split; reflexivity.
  - destruct (replaceFirst _ _ l); [do 2 eexists; split; reflexivity|].
    destruct (Nat.leb_spec maxTreeDepth d); [|lia]. do 2 eexists; split; reflexivity.
Qed.

Lemma add_branch_eq k args mk data v d h :
  add (S k) args (Branch mk data) v d h =
  match child data (h_hash h) with
  | None => Ok (newBranch (setNonNilChild (mk, data) (h_hash h) (Some (Leaf1 v))), 0%Z)
  | Some c =>
      '(n', m) <- add k args c v (S d) (h_next h) ;;
      Ok (newBranch (setNonNilChild (mk, data) (h_hash h) (Some n')), m)
  end.
Proof. reflexivity. Qed.

Lemma add_flat fuel args n v d h :
  flat n -> maxTreeDepth <= d ->
  exists r m, add (S (S fuel)) args n v d h = Ok (r, m) /\ flat r.
Proof.
  intros (mk & data & -> & Hc) Hd. rewrite add_branch_eq.
  assert (Hset : forall i c, isBranch c = false -> flat (newBranch (setNonNilChild (mk, data) i (Some c)))).
  { intros i c Hb. unfold newBranch, setNonNilChild; simpl. do 2 eexists; split; [reflexivity|].
    intros j x Hx. destruct (Nat.eq_dec i j) as [<-|Hne].
    - destruct (Nat.lt_ge_cases i (length data)) as [Hl|Hl].
      + rewrite child_set_eq in Hx by auto. inversion Hx; subst; auto.
      + rewrite child_overflow in Hx by (rewrite set_nth_length; auto). discriminate.
    - rewrite child_set_ne in Hx by auto. eauto. }
  destruct (child data (h_hash h)) as [c|] eqn:Ec.
  - destruct (add_nonbranch fuel args c v (S d) (h_next h)) as (r & m & E1 & Hr); eauto.
    rewrite E1. cbn [bind]. do 2 eexists; split; [reflexivity|]. auto.
  - do 2 eexists; split; [reflexivity|]. apply Hset; auto.
Qed.

Lemma combineTwig_dropped_ok fuel args d l rest :
  maxTreeDepth <= d -> exists m, combineTwig_dropped (S (S fuel)) args d l rest = Ok m.
Proof.
  intros Hd. unfold combineTwig_dropped.
  assert (H : forall es bm, flat (fst bm) -> exists bm',
    foldM (fun bm e => '(b', m) <- add (S (S fuel)) args (fst bm) e d (newHasher e d) ;;
                       Ok (b', (snd bm + m)%Z)) bm es = Ok bm').
  { induction es as [|e es IH]; intros bm Hb; cbn [foldM]; eauto.
    destruct (add_flat fuel args (fst bm) e d (newHasher e d) Hb Hd) as (r & m & E1 & Hr).
    rewrite E1. cbn [bind]. apply IH; auto. }
  destruct (H (l ++ rest) (newBranch emptyPacker, 0%Z)) as (bm' & E1).
  - simpl. do 2 eexists; split; [reflexivity|]. intros i c Hc. simpl in Hc.
    fold (emptyData (E := E) (T := T)) in Hc. rewrite child_emptyData in Hc. discriminate.
  - rewrite E1. simpl. eauto.
Qed.

Lemma replaceFirst_length p g (l l' : list T) : replaceFirst p g l = Some l' -> length l' = length l.
Proof.
  intros H. apply replaceFirst_Some in H as (l1 & e & l2 & -> & -> & _). rewrite !app_length; simpl; auto.
Qed.

Lemma combineTwig_panics fuel args d l l2 :
  maxTreeDepth <= d -> 3 <= length l -> combineTwig (S (S fuel)) args d l l2 = Panic.
Proof.
  intros Hd Hl. unfold combineTwig.
  assert (H : forall nd l0 m, 3 <= length l0 ->
    exists l' m', combineTwig_scan (S (S fuel)) args d l0 nd m = Ok (l', m') /\ 3 <= length l').
  { induction nd as [|e nd IH]; intros l0 m Hl0; cbn [combineTwig_scan]; eauto.
    destruct (replaceFirst _ _ l0) as [l'|] eqn:Er.
    - apply IH. apply replaceFirst_length in Er. lia.
    - destruct (Nat.ltb_spec (length l0) maxLeafLen); [unfold maxLeafLen in *; lia|].
      destruct (combineTwig_dropped_ok fuel args d l0 (e :: nd) Hd) as (md & Ed). rewrite Ed. cbn [bind].
      apply IH; auto. }
  destruct (H l2 l 0%Z Hl) as (l' & m' & E1 & Hl'). rewrite E1. cbn [bind].
  destruct (Nat.ltb_spec maxLeafLen (length l')); auto. unfold maxLeafLen in *; lia.
Qed.

(** ** Combine *)

(** The two tries both reach the same position at maximum depth, and one of them has
    a twig (three or more elements with the same full hash) there. *)
Inductive clash : node -> node -> Prop :=
| clash_l l n : clash (Twig l) n
| clash_r n l : clash n (Twig l)
| clash_branch m1 d1 m2 d2 i x y :
    child d1 i = Some x -> child d2 i = Some y -> clash x y ->
    clash (Branch m1 d1) (Branch m2 d2).

(** Assembling the children of a combined branch. *)
Lemma comb_branch cf d d1 d2 d3 m :
  placed d d1 -> placed d d2 -> placed d d3 ->
  length d1 = fanout -> length d2 = fanout -> length d3 = fanout ->
  allok (flat_map elemso d1) -> allok (flat_map elemso d2) -> allok (flat_map elemso d3) ->
  (forall i, i < fanout -> forall w, vok w ->
     lookup (elemso (child d3 i)) w = comb cf (elemso (child d1 i)) (elemso (child d2 i)) w) ->
  (forall i, i < fanout ->
     (leno (child d3 i) + m i = leno (child d1 i) + leno (child d2 i))%Z) ->
  combres cf (flat_map elemso d1) (flat_map elemso d2) (flat_map elemso d3) (sumZ (map m (seq 0 fanout))).
Proof.
  intros Hp1 Hp2 Hp3 Hl1 Hl2 Hl3 Hok1 Hok2 Hok3 Hlk Hlen. split.
  - intros w Hw. rewrite (lookup_placed d d3) by auto.
    unfold comb. rewrite (lookup_placed d d1), (lookup_placed d d2) by auto.
    apply Hlk; auto. apply digit_lt.
  - rewrite (length_branch d1 fanout), (length_branch d2 fanout), (length_branch d3 fanout) by auto.
    rewrite <- !sumZ_plus. apply sumZ_ext. intros i Hi. apply in_seq in Hi. apply Hlen. lia.
Qed.

(** Elements of a combination hash like the elements combined. *)
Lemma combres_digit cf d l1 l2 r m i :
  cfok cf -> distinct r -> allok r -> allok l1 -> allok l2 ->
  combres cf l1 l2 r m ->
  (forall e, In e l1 -> digit d e = i) -> (forall e, In e l2 -> digit d e = i) ->
  forall e, In e r -> digit d e = i.
Proof.
  intros Hcf Hd Hok Hok1 Hok2 [H1 _] Hd1 Hd2 e He.
  pose proof (lookup_In r e Hd Hok He) as El. rewrite H1 in El by auto. unfold comb in El.
  destruct (lookup l1 e) as [a|] eqn:Ea.
  - apply lookup_Some in Ea as [Ha Hae]. rewrite <- (Hd1 a Ha). symmetry. apply veq_digit; auto.
  - apply lookup_Some in El as [Hb _]. auto.
Qed.

Lemma child_in_mask m1 m2 (d1 d2 : list (option node)) i :
  length d1 = fanout -> length d2 = fanout -> m1 = updateMask d1 -> m2 = updateMask d2 ->
  N.testbit (N.lor m1 m2) (N.of_nat i) = (isSome (child d1 i) || isSome (child d2 i))%bool.
Proof.
  intros H1 H2 -> ->. rewrite N.lor_spec, !updateMask_testbit by auto. auto.
Qed.

Lemma placed_allok d data : (forall i c, child data i = Some c -> wf (S d) c) -> allok (flat_map elemso data).
Proof.
  intros Hc e He. apply in_flat_map_child in He as (i & He).
  apply elemso_in in He as (c & Ec & He). apply (wf_allok (S d) c); auto. eauto.
Qed.

Theorem combine_wf fuel : forall d args n n2,
  wf d n -> wf d n2 -> c_eq args = veq -> cfok (c_f args) -> gaugeOk (c_gauge args) ->
  fuelBin d <= fuel ->
  (clash n n2 /\ combine fuel args n n2 d = Panic) \/
  (~ clash n n2 /\ exists r m, combine fuel args n n2 d = Ok (r, m) /\ wf d r /\
     combres (c_f args) (elems n) (elems n2) (elems r) m).
Proof.
  induction fuel as [|fuel IH]; intros d args n n2 Hwf1 Hwf2 Heq Hcf Hg Hf; [unfold fuelBin in Hf; lia|].
  unfold fuelBin in Hf.
  pose proof (wf_allok _ _ Hwf1) as Hok1. pose proof (wf_distinct _ _ Hwf1) as Hdis1.
  pose proof (wf_allok _ _ Hwf2) as Hok2. pose proof (wf_distinct _ _ Hwf2) as Hdis2.
  assert (Hcff : cfok (c_f (flip_args args))) by (simpl; apply cfok_flip; auto).
  destruct n as [a|a b|l|m1 d1].
  - (* leaf1 *)
    inversion Hwf1; subst.
    destruct n2 as [x|x y|l2|m2 d2].
    + right. split; [intros Hc; inversion Hc|].
      inversion Hwf2; subst. cbn [combine].
      destruct (combineLeaf1_wf args d a x) as [Hr1 Hr2]; auto.
      destruct (combineLeaf1 args a x) as [r m]. simpl in *. eauto.
    + right. split; [intros Hc; inversion Hc|].
      inversion Hwf2; subst. cbn [combine].
      destruct (combineLeaf21_wf fuel (flip_args args) d x y a) as (r & m & E1 & Hr & Hc); auto; try lia.
      exists r, m. split; auto. split; auto. apply combres_flip; auto.
    + left. split; [apply clash_r|]. reflexivity.
    + right. split; [intros Hc; inversion Hc|]. cbn [combine].
      destruct (with_wf (vok := vok) d fuel (flip_args args) (Branch m2 d2) a) as (r & m & E1 & Hr & Hc); auto.
      { unfold fuelAt; lia. }
      exists r, m. split; auto. split; auto. apply combres_flip. apply combres_one; auto.
  - (* leaf2 *)
    inversion Hwf1; subst.
    destruct n2 as [x|x y|l2|m2 d2].
    + right. split; [intros Hc; inversion Hc|].
      inversion Hwf2; subst. cbn [combine].
      destruct (combineLeaf21_wf fuel args d a b x) as (r & m & E1 & Hr & Hc); auto; try lia. eauto.
    + right. split; [intros Hc; inversion Hc|].
      inversion Hwf2; subst. cbn [combine].
      destruct (combineLeaf2_wf fuel args d a b x y) as (r & m & E1 & Hr & Hc); auto; try lia. eauto.
    + left. split; [apply clash_r|]. reflexivity.
    + right. split; [intros Hc; inversion Hc|]. cbn [combine].
      destruct (with_wf (vok := vok) d fuel (flip_args args) (Branch m2 d2) a) as (r & m & E1 & Hr & Hc); auto.
      { unfold fuelAt; lia. }
      destruct (with_wf (vok := vok) d fuel (flip_args args) r b) as (r' & m' & E2 & Hr' & Hc'); auto.
      { unfold fuelAt; lia. }
      rewrite E1. cbn [bind]. rewrite E2. cbn [bind].
      exists r', (m + m')%Z. split; auto. split; auto. apply combres_flip.
      eapply combres_cons; eauto.
      * intros e [<-|[]]; auto.
      * apply combres_one; auto. eapply wf_allok; eauto.
  - (* twig *)
    left. split; [apply clash_l|].
    inversion Hwf1; subst. destruct n2 as [x|x y|l2|m2 d2]; auto.
    cbn [combine]. destruct fuel as [|[|fuel]]; try lia. apply combineTwig_panics; auto.
  - (* branch *)
    inversion Hwf1 as [| | |d' m' data' Hd Hlen1 Hm1 Hch1 Hp1 Hl1]; subst d' m' data'.
    destruct n2 as [x|x y|l2|m2 d2].
    + right. split; [intros Hc; inversion Hc|].
      inversion Hwf2; subst. cbn [combine].
      destruct (with_wf (vok := vok) d fuel args (Branch (updateMask d1) d1) x) as (r & m & E1 & Hr & Hc); auto.
      { unfold fuelAt; lia. }
      exists r, m. split; auto. split; auto. apply combres_one; auto.
    + right. split; [intros Hc; inversion Hc|].
      inversion Hwf2; subst. cbn [combine].
      destruct (with_wf (vok := vok) d fuel args (Branch (updateMask d1) d1) x) as (r & m & E1 & Hr & Hc); auto.
      { unfold fuelAt; lia. }
      destruct (with_wf (vok := vok) d fuel args r y) as (r' & m' & E2 & Hr' & Hc'); auto.
      { unfold fuelAt; lia. }
      rewrite E1. cbn [bind]. rewrite E2. cbn [bind].
      exists r', (m + m')%Z. split; auto. split; auto.
      eapply combres_cons; eauto.
      * intros e [<-|[]]; auto.
      * apply combres_one; auto. eapply wf_allok; eauto.
    + inversion Hwf2; subst. lia.
    + (* branch, branch *)
      inversion Hwf2 as [| | |d' m' data' _ Hlen2 Hm2 Hch2 Hp2 Hl2]; subst d' m' data'.
      cbn [combine].
      set (w := fun i => match child d1 i, child d2 i with
                         | None, y => Ok (y, 0%Z)
                         | x, None => Ok (x, 0%Z)
                         | Some x, Some y =>
                             bind (combine fuel (c_sub i args) x y (S d))
                                  (fun rm => Ok (Some (fst rm), snd rm))
                         end).
      match goal with |- context [parallel _ _ _ ?F emptyPacker] => set (f := F) end.
      assert (Hmask : (N.lor m1 m2 < 2 ^ 16)%N).
      { subst m1 m2. apply lt_pow_lor; apply updateMask_lt. }
      assert (Hhi : forall i, fanout <= i -> N.testbit (N.lor m1 m2) (N.of_nat i) = false).
      { intros i Hi. rewrite (child_in_mask m1 m2 d1 d2) by auto.
        rewrite !child_overflow by lia. auto. }
      assert (Hsw : slot_worker w f (mask_indices (N.lor m1 m2))).
      { intros i s _. unfold w, f.
        destruct (child d1 i) as [x|].
        - destruct (child d2 i) as [y|].
          + exists (fun m => m). destruct (combine fuel (c_sub i args) x y (S d)) as [[r m]| |]; simpl; auto.
          + exists (fun m => N.lor m (newMasker i)). simpl. reflexivity.
        - exists (fun m => N.lor m (newMasker i)). simpl. reflexivity. }
      (* each child either clashes or combines *)
      assert (Hcase : forall i, i < fanout ->
        ((exists x y, child d1 i = Some x /\ child d2 i = Some y /\ clash x y) /\ w i = Panic) \/
        ((~ exists x y, child d1 i = Some x /\ child d2 i = Some y /\ clash x y) /\
         exists o m, w i = Ok (o, m) /\ wfo vok (S d) o /\
           (forall e, In e (elemso o) -> digit d e = i) /\
           (forall w0, vok w0 -> lookup (elemso o) w0 =
              comb (c_f args) (elemso (child d1 i)) (elemso (child d2 i)) w0) /\
           (leno o + m = leno (child d1 i) + leno (child d2 i))%Z)).
      { intros i Hi. unfold w.
        destruct (child d1 i) as [x|] eqn:E1.
        - destruct (child d2 i) as [y|] eqn:E2.
          + destruct (IH (S d) (c_sub i args) x y) as [[Hc Hpan]|[Hnc (r & m & Ec & Hr & Hres)]]; eauto.
            { simpl. apply gaugeOk_sub; auto. }
            { unfold fuelBin. lia. }
            * left. split; [eauto|]. rewrite Hpan. auto.
            * right. split.
              { intros (x' & y' & [= <-] & [= <-] & Hc'). auto. }
              rewrite Ec. cbn [bind fst snd]. exists (Some r), m. split; auto.
              split; [apply wfo_Some; auto|]. split; [|split].
              -- assert (Hx : wf (S d) x) by eauto. assert (Hy : wf (S d) y) by eauto.
                 apply (combres_digit (c_f args) d (elems x) (elems y) (elems r) m i); eauto using wf_allok, wf_distinct.
                 ++ intros e He. apply (Hp1 i e). rewrite E1; auto.
                 ++ intros e He. apply (Hp2 i e). rewrite E2; auto.
              -- intros w0 Hw0. apply Hres; auto.
              -- destruct Hres as [_ Hres]. exact Hres.
          + right. split; [intros (x' & y' & _ & [=] & _)|].
            exists (Some x), 0%Z. split; auto. split; [apply wfo_Some; eauto|]. split; [|split].
            * intros e He. apply (Hp1 i e). rewrite E1; auto.
            * intros w0 Hw0. unfold comb. simpl elemso.
              change (lookup [] w0) with (@None T). destruct (lookup _ w0); auto.
            * unfold leno; simpl. lia.
        - right. split; [intros (x' & y' & [=] & _ & _)|].
          exists (child d2 i), 0%Z. split; auto. split; [|split; [|split]].
          * intros y Hy. eauto.
          * intros e He. apply (Hp2 i e); auto.
          * intros w0 Hw0. unfold comb. simpl elemso.
            change (lookup [] w0) with (@None T). auto.
          * unfold leno; simpl. lia. }
      assert (Hdec : (exists i, i < fanout /\ (exists x y, child d1 i = Some x /\ child d2 i = Some y /\ clash x y) /\ w i = Panic) \/
        (forall i, i < fanout ->
         (~ exists x y, child d1 i = Some x /\ child d2 i = Some y /\ clash x y) /\
         exists o m, w i = Ok (o, m) /\ wfo vok (S d) o /\
           (forall e, In e (elemso o) -> digit d e = i) /\
           (forall w0, vok w0 -> lookup (elemso o) w0 =
              comb (c_f args) (elemso (child d1 i)) (elemso (child d2 i)) w0) /\
           (leno o + m = leno (child d1 i) + leno (child d2 i))%Z)).
      { clear -Hcase. induction fanout as [|k IHk].
        - right. intros i Hi. lia.
        - destruct IHk as [(i & Hi & H)|H].
          + intros i Hi. apply Hcase. lia.
          + left. exists i. split; auto.
          + destruct (Hcase k) as [Hk|Hk]; [lia|left; exists k; auto|].
            right. intros i Hi. destruct (Nat.eq_dec i k) as [->|Hne]; auto. apply H. lia. }
      destruct Hdec as [(i & Hi & (x & y & Ex & Ey & Hcl) & Hpan)|Hall].
      * left. split; [eapply clash_branch; eauto|].
        rewrite (par_branch_panic (c_gauge args) d (N.lor m1 m2) f w); auto.
        -- intros j Hj. apply mask_indices_In in Hj as [_ Hj]; auto.
           assert (j < fanout) as Hjf.
           { destruct (Nat.lt_ge_cases j fanout); auto. rewrite Hhi in Hj; auto. discriminate. }
           destruct (Hcase j Hjf) as [[_ Hw]|[_ (o & m & Hw & _)]]; rewrite Hw; discriminate.
        -- exists i. split; auto. apply mask_indices_In; auto. split; [pose proof fanout_le; lia|].
           rewrite (child_in_mask m1 m2 d1 d2) by auto. rewrite Ex. auto.
      * right. split.
        { intros Hc. inversion Hc as [| |? ? ? ? i x y Ex Ey Hxy]; subst.
          assert (i < fanout) as Hi.
          { destruct (Nat.lt_ge_cases i fanout); auto. rewrite child_overflow in Ex by lia. discriminate. }
          destruct (Hall i Hi) as [Hn _]. apply Hn. eauto. }
        destruct (par_branch (c_gauge args) d (N.lor m1 m2) f w) as (s' & E1 & Hs & Hsc); auto.
        { intros i Hi. destruct (Hall i Hi) as [_ (o & m & Hw & _)]. eauto. }
        { intros i Hi Ht. rewrite (child_in_mask m1 m2 d1 d2) in Ht by auto.
          unfold w. destruct (child d1 i); [discriminate|]. destruct (child d2 i); [discriminate|]. auto. }
        rewrite E1. cbn [bind].
        assert (Hch3 : forall i c, child (snd s') i = Some c -> wf (S d) c).
        { intros i c Hc. assert (i < fanout) as Hi.
          { destruct (Nat.lt_ge_cases i fanout); auto. rewrite child_overflow in Hc by lia. discriminate. }
          destruct (Hall i Hi) as [_ (o & m & Hw & Ho & _)].
          rewrite (Hsc i o m) in Hc by auto. subst o. apply wfo_Some; auto. }
        assert (Hp3 : placed d (snd s')).
        { intros i e He. assert (i < fanout) as Hi.
          { destruct (Nat.lt_ge_cases i fanout); auto. rewrite child_overflow in He by lia. contradiction. }
          destruct (Hall i Hi) as [_ (o & m & Hw & _ & Ho & _)].
          rewrite (Hsc i o m) in He by auto. auto. }
        assert (Hres : combres (c_f args) (flat_map elemso d1) (flat_map elemso d2)
                   (flat_map elemso (snd s')) (sumZ (map (fun i => outZ (w i)) (seq 0 fanout)))).
        { apply comb_branch with d; auto; try (eapply placed_allok; eauto; fail).
          - intros i Hi w0 Hw0. destruct (Hall i Hi) as [_ (o & m & Hw & _ & _ & Ho & _)].
            rewrite (Hsc i o m) by auto. auto.
          - intros i Hi. destruct (Hall i Hi) as [_ (o & m & Hw & _ & _ & _ & Ho)].
            rewrite (Hsc i o m) by auto. rewrite Hw. simpl. auto. }
        do 2 eexists. split; [reflexivity|].
        rewrite !elems_branch. split; auto.
        apply pre_wf; [constructor; auto|].
        rewrite elems_branch.
        (* at least as many elements as d1 *)
        rewrite elems_branch in Hok1, Hdis1, Hl1.
        assert (length (flat_map elemso d1) <= length (flat_map elemso (snd s'))); [|lia].
        apply distinct_length_le; auto.
        -- eapply placed_allok; eauto.
        -- intros e He. destruct (lookup (flat_map elemso (snd s')) e) as [z|] eqn:Ez.
           ++ apply lookup_Some in Ez as [Hz Hq]. exists z; split; auto.
              apply veq_sym; auto. eapply placed_allok; eauto.
           ++ destruct Hres as [Hres _]. rewrite Hres in Ez by auto. unfold comb in Ez.
              rewrite lookup_In in Ez by auto. destruct (lookup _ e); discriminate.
Qed.

End NodeBin.
