(** * HeapBulk: how many nodes and arrays the operations on whole sets allocate.

    [costs h m n post] (HeapAlloc.v): started in [h], [m] allocates at most [n] nodes and arrays. Two tries are walked in
    step, and a child that only one of them has is shared, so that the bound is the size of the smaller one times the depth.
    Where no three elements share a hash there are no twigs (HeapQuiet.v); only Where is treated with twigs. *)
From Verif Require Import Base Bits Env EnvFacts Node NodeWf NodeAdd NodeRemove NodeBin Tree TreeFacts CostBin.
From Verif Require Import HeapModel HeapFrame HeapOwn HeapRep HeapSim HeapSim2 HeapProg HeapProgSim HeapQuiet HeapAlloc.
Local Open Scope nat_scope.

Section Bulk.
Context {E : Env} {EO : EnvOk E} {T : Type} {K : Key T} {vok : T -> Prop} {KO : KeyOk K vok} (grow : nat -> nat -> nat).
Notation obj := (obj (T := T)).
Notation heap := (heap (T := T)).
Notation M := (M (T := T)).
Notation node := (node T).
Notation wf := (wf vok).
Notation D := maxTreeDepth.
Local Opaque maxTreeDepth fanout fb.

(** ** Sequences *)

(** A step that agrees with the pure model. *)
Lemma costs_sim {A A' B} h (m : M A) (r : res A') Rel (k : A -> M B) n1 n2 n post : sim h m r Rel -> still h m ->
  costs h m n1 anyPost -> n1 + n2 <= n ->
  (forall a a' h1, r = Ok a' -> kept h h1 -> Rel a a' h1 -> costs h1 (k a) n2 post) -> costs h (bindM m k) n post.
Proof.
  intros Hs Hm [H1 _] Hn Hk. destruct (Hs Hm) as [K1 A1]. unfold costs, bindM in *. destruct (m h) as [o h1]. cbn [fst snd] in *.
  destruct r as [a'| |]; cbn [agrees] in A1.
  - destruct A1 as (a & -> & HR). destruct (Hk a a' h1 eq_refl K1 HR) as [H2 H3]. split; [lia|auto].
  - subst o. cbn. split; [lia|discriminate].
  - subst o. cbn. split; [lia|discriminate].
Qed.
(** A step after which anything can be done. *)
Lemma costs_any {A B} h (m : M A) (k : A -> M B) n1 n2 n post : costs h m n1 anyPost -> n1 + n2 <= n ->
  (forall a h1, costs h1 (k a) n2 post) -> costs h (bindM m k) n post.
Proof. intros H Hn Hk. eapply costs_bind; [exact H|exact Hn|]. auto. Qed.
Lemma costs_done {A} h (a : A) n : costs h (ret a) n (anyPost (T := T)).
Proof. apply costs_ret. exact Logic.I. Qed.
Lemma costs_stop {A} h (r : res A) n : (forall a, r <> Ok a) -> costs h (fail r) n (anyPost (T := T)).
Proof. apply costs_fail. Qed.
Lemma costs_up {A} h (m : M A) n n' post : costs h m n post -> n <= n' -> costs h m n' (anyPost (T := T)).
Proof. intros H Hn. eapply costs_weaken; [exact H|exact Hn|]. intros; exact Logic.I. Qed.
Lemma costs_one {A} h (o : obj) (f : nat -> A) n : 1 <= n -> costs h (q <~ alloc o ;; ret (f q)) n (anyPost (T := T)).
Proof. intros Hn. eapply costs_any with (n1 := 1) (n2 := 0); [eapply costs_up; [apply costs_alloc|lia]|lia|]. intros; apply costs_done. Qed.

Lemma costs_has_at {B} h fuel p e d (k : bool -> M B) n post : (forall b, costs h (k b) n post) -> costs h (bindM (has_atH fuel p e d) k) n post.
Proof.
  intros H. unfold costs, bindM. pose proof (has_at_read fuel p e d h) as Hr. destruct (has_atH fuel p e d h) as [[b| |] h1]; cbn [snd] in Hr; subst h1.
  - apply H.
  - cbn. split; [lia|discriminate].
  - cbn. split; [lia|discriminate].
Qed.

(** The children are visited in any order; what exists is kept. *)
Lemma costs_parallel g dep mask (F : nat -> M (option nat * Z)) (c : nat -> nat) h n :
  (forall i h1, kept h h1 -> costs h1 (F i) (c i) (fun _ h2 => kept h1 h2)) ->
  list_sum (map c (par_order g dep mask)) <= n -> costs h (parallelH g dep mask F) n (fun _ h2 => kept h h2).
Proof.
  intros HF Hn. unfold parallelH. eapply costs_weaken; [|exact Hn|intros a h' H; exact H]. clear Hn.
  assert (Hgen : forall order acc data h1, kept h h1 -> costs h1 (parallelH_loop F order acc data) (list_sum (map c order)) (fun _ h2 => kept h h2)).
  { induction order as [|i order IH]; intros acc data h1 K1; cbn [parallelH_loop]; [apply costs_ret; auto|].
    cbn [map list_sum fold_right]. fold (list_sum (map c order)).
    eapply costs_bind; [apply HF; auto|apply Nat.le_refl|]. intros [r m] h2 K2. apply IH. eapply kept_trans; eauto. }
  apply Hgen. apply kept_refl.
Qed.

(** A step known to keep what exists. *)
Lemma costs_kept {A} h (m : M A) n : costs h m n anyPost -> (forall h, kept h (snd (m h))) -> costs h m n (fun _ h2 => kept h h2).
Proof. intros [H _] Hk. split; auto. intros a h' E1. specialize (Hk h). rewrite E1 in Hk. exact Hk. Qed.
Lemma adds_kept {A} (m : M A) : adds m -> forall h, kept h (snd (m h)).
Proof. intros H h. apply kept_add. apply H. Qed.

(** ** Splitting *)

Lemma costs_addAll k d : forall l b n h L R x, own h b n L R -> NoDup L -> NoDup R -> shape true d n -> isBranch n ->
  costs h (foldMM (fun _ e => addFastH grow k b e d (newHasher e d)) x l) (length l * (4 * (D - d) + 2)) (anyPost (T := T)).
Proof.
  induction l as [|e l IH]; intros b n h L R x Ho HL HR Hs Hb; cbn [foldMM length]; [apply costs_done|].
  pose proof (add_own grow true k (mkCombineArgs NonParallel veq (fun _ b => b)) b n e d h L R Ho HL HR Hs) as [_ Hr]. cbn [c_eq c_f] in Hr.
  assert (Hc : costs h (addFastH grow k b e d (newHasher e d)) (4 * (D - d) + 2) anyPost).
  { apply costs_addH. eapply rep_deep; [eapply own_rep; exact Ho|exact Hs]. }
  remember (4 * (D - d) + 2) as X eqn:EX. clear EX.
  unfold addFastH in *. destruct Hc as [Hc _]. unfold costs, bindM. destruct (addH grow k veq (fun _ b0 => b0) b e d (newHasher e d) h) as [o h1].
  cbn [fst snd] in *. destruct (add k _ n e d (newHasher e d)) as [[n' m]| |].
  - destruct Hr as (q & L' & R' & -> & Ho' & HL' & HR' & Hs' & Hin). destruct n as [| | |mm dd]; try destruct Hb. cbn in Hin.
    destruct (Hin Logic.I) as [-> Hb']. destruct (IH b n' h1 L' R' (b, m) Ho' HL' HR' Hs' Hb') as [H1 H2]. cbn [fst snd] in *. split; [|auto].
    eapply Nat.le_trans; [exact H1|]. rewrite Nat.mul_succ_l. lia.
  - subst o. cbn [fst snd]. split; [rewrite Nat.mul_succ_l; lia|discriminate].
  - subst o. cbn [fst snd]. split; [rewrite Nat.mul_succ_l; lia|discriminate].
Qed.

Lemma costs_splitAll k d (data : list T) (m : Z) h : costs h (sl <~ newSlice data ;; q <~ newBranchFromH grow k d sl ;; ret (q, m))
  (2 + length data * (4 * (D - d) + 2)) (anyPost (T := T)).
Proof.
  set (N := length data * _).
  assert (Hi : costs h (newSlice data) 1 (fun sl h1 => sl = (length (h_arrs h), length data) /\
      nth_error (h_arrs h1) (length (h_arrs h)) = Some (mkArray data (length data) (length data)))).
  { split; cbn.
    - unfold hsize. cbn. rewrite app_length. cbn. lia.
    - intros a h1 E1. inversion E1; subst. cbn. split; auto. apply nth_error_new. }
  eapply costs_bind with (n2 := 1 + N); [exact Hi|lia|]. intros sl h1 [-> Ha].
  eapply costs_any with (n1 := 1 + N) (n2 := 0); [|lia|intros; apply costs_done].
  unfold newBranchFromH, newBranchFromH_with. destruct (Nat.leb_spec D d) as [Hm|Hm]; [eapply costs_up; [apply costs_alloc|lia]|].
  eapply (costs_run _ _ _ _ _ 0); [eapply elemsOf_ok; [exact Ha|cbn; apply firstn_all]|lia|lia|]. rewrite Nat.sub_0_r.
  destruct (own_emptyBranch h1) as (h2 & E1 & Ho & _ & _).
  eapply (costs_run _ _ _ _ _ 1); [exact E1| |lia|].
  { unfold emptyBranchH, newBranchH, alloc in E1. inversion E1; subst. unfold hsize. cbn. rewrite app_length. cbn. lia. }
  replace (1 + N - 1) with N by lia.
  eapply costs_any with (n1 := N) (n2 := 0); [|lia|intros; apply costs_done].
  eapply (costs_addAll k d data _ _ h2 _ _ _ Ho).
  - repeat constructor; auto.
  - constructor.
  - apply shape_empty; auto.
  - exact Logic.I.
Qed.

(** ** Where *)

Local Ltac child_cases Hds Hs i ex en x nx Hx Hsx :=
  destruct (branch_child _ _ _ _ _ i Hds Hs) as [[ex en]|(x & nx & ex & en & Hx & Hsx)].

Lemma costs_filterPred pred l : forall sl m h, costs h (filterPredH grow pred l sl m) (length l) (anyPost (T := T)).
Proof.
  induction l as [|e l IH]; intros sl m h; cbn [filterPredH length]; [apply costs_done|]. destruct (pred e).
  - eapply costs_any with (n1 := 1) (n2 := length l); [eapply costs_up; [apply costs_append|lia]|lia|]. intros; apply IH.
  - eapply costs_up; [apply IH|lia].
Qed.

Lemma costs_newCanonical k d sl h : D <= d -> costs h (newCanonicalH grow k d sl) 2 (anyPost (T := T)).
Proof.
  intros Hd. unfold newCanonicalH, newTwigH. eapply costs_any with (n1 := 1) (n2 := 1); [eapply costs_up; [apply costs_alloc|lia]|lia|].
  intros q h1. apply costs_canonicalTwig. auto.
Qed.

Lemma costs_parBranch k data (ms : Z) h : costs h (q <~ newBranchH (updateMaskP data, data) ;; o <~ canonicalBranchH grow k q ;; ret (o, ms)) 4 (anyPost (T := T)).
Proof.
  eapply costs_any with (n1 := 1) (n2 := 3); [eapply costs_up; [apply costs_alloc|lia]|lia|]. intros q h1.
  eapply costs_any with (n1 := 3) (n2 := 0); [apply costs_canonicalBranch|lia|]. intros; apply costs_done.
Qed.

(** The children of a branch. *)
Lemma wf_branch_inv d m ds : wf d (Branch m ds) -> d < D /\ m = updateMask ds /\ 1 <= length (flat_map elemso ds) /\ (m < 2 ^ 16)%N.
Proof.
  intros Hw. inversion Hw as [| | |d' m' ds' Hd Hlen Hm Hch Hpl Hl]; subst. split; auto. split; auto. split; [|apply updateMask_lt].
  rewrite elems_branch in Hl. lia.
Qed.

Lemma costs_whereH k : forall g pred h p n d, rep h p n -> wf d n -> gaugeOk g ->
  costs h (whereH grow k g pred p d) (4 * (D - d + 1) * size n) (anyPost (T := T)).
Proof.
  induction k as [|k IH]; intros g pred h p n d Hr Hw Hg; cbn [whereH]; [apply costs_stop; discriminate|].
  assert (Hs := wf_shape _ _ Hw).
  inversion Hr as [p0 a Hp|p0 a b Hp|p0 r l Hp Hl|p0 m da ds Hp Hds]; subst; (eapply costs_load_ok; [exact Hp|]); cbv beta iota.
  - destruct (pred a); apply costs_done.
  - change (size (Leaf2 a b)) with 2. destruct (pred a), (pred b); try apply costs_done; (eapply (costs_one _ _ (fun q => (Some q, 1%Z))); lia).
  - assert (Hd : D <= d /\ 3 <= length l) by (inversion Hs; auto). destruct Hd as [Hd H3]. change (size (Twig l)) with (length l).
    eapply costs_bind; [apply costs_elemsOf|apply Nat.le_refl|]. intros l' h' [-> Hl']. cbn [snd] in Hl'.
    assert (Hle : 3 + length l' <= 4 * (D - d + 1) * length l) by nia.
    eapply costs_any with (n1 := 1) (n2 := 2 + length l'); [eapply costs_up; [apply costs_newSlice|lia]|lia|]. intros sl h1.
    eapply costs_any with (n1 := length l') (n2 := 2); [apply costs_filterPred|lia|]. intros [sl2 ms] h2.
    eapply costs_any with (n1 := 2) (n2 := 0); [apply costs_newCanonical; auto|lia|]. intros; apply costs_done.
  - destruct (wf_branch_inv _ _ _ Hw) as (Hd & Hm & H1 & Hlt). assert (Hsz : size (Branch m ds) = length (flat_map elemso ds)) by (unfold size; rewrite elems_branch; auto).
    rewrite Hsz. assert (Hn : NoDup (par_order g d m)) by (apply order_nodup; auto).
    pose proof (sum_order ds _ Hn) as Hsum.
    eapply costs_bind with (n1 := 4 * (D - d) * length (flat_map elemso ds)) (n2 := 4) (post := anyPost).
    + eapply costs_up; [eapply (costs_parallel _ _ _ _ (fun i => 4 * (D - d) * sizeo (child ds i)))|apply Nat.le_refl].
      * intros i h1 K1. child_cases Hds Hs i Ex En x nx Hx Hsx; rewrite Ex; [apply costs_fail; discriminate|].
        apply costs_kept; [|apply adds_kept, adds_whereH].
        replace (D - d) with (D - S d + 1) by lia. rewrite En. change (sizeo (Some nx)) with (size nx).
        apply IH; [eauto using rep_kept|inversion Hw; eauto|apply gaugeOk_sub; auto].
      * rewrite sum_mul. apply Nat.mul_le_mono_l; auto.
    + nia.
    + intros [nodes ms] h1 _. destruct (_ && _)%bool; [apply costs_done|]. apply costs_parBranch.
Qed.

(** ** Two tries without twigs *)

Hypothesis Hno : noTriple vok.
Notation good := (good (vok := vok)).
Notation Cst := (16 * D + 10).

Lemma good_wf d n : good d n -> wf d n.
Proof. intros [H _]. exact H. Qed.
Lemma sum_min (d1 d2 : list (option node)) l : NoDup l ->
  list_sum (map (fun i => min (sizeo (child d1 i)) (sizeo (child d2 i))) l) <= min (length (flat_map elemso d1)) (length (flat_map elemso d2)).
Proof. intros Hn. apply Nat.min_glb; (eapply Nat.le_trans; [|apply sum_order, Hn]); apply sum_le; intros i; lia. Qed.
Lemma size_pos d n : wf d n -> 1 <= size n.
Proof. intros H. unfold size. inversion H; subst; try (cbn; lia); try lia. Qed.

(** The bound for a pair of nodes at depth [d]. *)
Definition pairCost (d : nat) (n n2 : node) : nat := Cst * (D - d + 1) * min (size n) (size n2).
Lemma pairCost_one d n n2 : wf d n -> wf d n2 -> Cst <= pairCost d n n2.
Proof.
  intros H1 H2. apply size_pos in H1, H2. unfold pairCost.
  assert (Hm : 1 <= min (size n) (size n2)) by lia. remember (min (size n) (size n2)) as s. remember (16 * D + 10) as c. nia.
Qed.
Lemma pairCost_branch d m ds m2 ds2 : wf d (Branch m ds) -> wf d (Branch m2 ds2) ->
  Cst * (D - d) * min (length (flat_map elemso ds)) (length (flat_map elemso ds2)) + 4 <= pairCost d (Branch m ds) (Branch m2 ds2).
Proof.
  intros H1 H2. destruct (wf_branch_inv _ _ _ H1) as (Hd & _ & A1 & _), (wf_branch_inv _ _ _ H2) as (_ & _ & A2 & _).
  unfold pairCost, size. rewrite !elems_branch.
  assert (Hm : 1 <= min (length (flat_map elemso ds)) (length (flat_map elemso ds2))) by lia.
  remember (min (length (flat_map elemso ds)) (length (flat_map elemso ds2))) as s. remember (D - d) as x.
  assert (Hc : 4 <= Cst) by lia. remember (16 * D + 10) as c. nia.
Qed.

(** The children of two branches. *)
Lemma costs_children g d m m2 ds ds2 mask (F : nat -> M (option nat * Z)) h :
  wf d (Branch m ds) -> wf d (Branch m2 ds2) -> gaugeOk g -> (mask < 2 ^ 16)%N ->
  (forall i h1, kept h h1 -> costs h1 (F i) (match child ds i, child ds2 i with Some x, Some y => pairCost (S d) x y | _, _ => 0 end) (fun _ h2 => kept h1 h2)) ->
  costs h (parallelH g d mask F) (Cst * (D - d) * min (length (flat_map elemso ds)) (length (flat_map elemso ds2))) anyPost.
Proof.
  intros H1 H2 Hg Hm HF. destruct (wf_branch_inv _ _ _ H1) as (Hd & _ & _ & _).
  eapply costs_up; [|apply Nat.le_refl].
  eapply (costs_parallel _ _ _ _ (fun i => Cst * (D - d) * min (sizeo (child ds i)) (sizeo (child ds2 i)))).
  - intros i h1 K1. eapply costs_weaken; [apply HF; auto| |intros a h' H; exact H].
    destruct (child ds i) as [x|], (child ds2 i) as [y|]; try lia. unfold pairCost.
    change (sizeo (Some x)) with (size x). change (sizeo (Some y)) with (size y). replace (D - S d + 1) with (D - d) by lia. lia.
  - rewrite sum_mul. apply Nat.mul_le_mono_l. apply sum_min. apply order_nodup; auto.
Qed.

Lemma sim_kept {A A'} h (m : M A) (r : res A') Rel n : sim h m r Rel -> still h m -> costs h m n anyPost -> costs h m n (fun _ h2 => kept h h2).
Proof. intros Hs Hm [H _]. split; auto. intros a h' E1. destruct (Hs Hm) as [Hk _]. rewrite E1 in Hk. exact Hk. Qed.

(** *** Difference *)

Lemma costs_differenceH k : forall g h p p2 n n2 d, rep h p n -> rep h p2 n2 -> good d n -> wf d n2 -> gaugeOk g -> fuelBin d <= k ->
  costs h (differenceH grow k g p p2 d) (pairCost d n n2) (anyPost (T := T)).
Proof.
  induction k as [|k IH]; intros g h p p2 n n2 d Hr Hr2 Hgd Hw2 Hg Hk; cbn [differenceH]; [apply costs_stop; discriminate|].
  assert (Hw := good_wf _ _ Hgd). assert (Hs := wf_shape _ _ Hw). assert (Hs2 := wf_shape _ _ Hw2).
  assert (Hone := pairCost_one _ _ _ Hw Hw2). assert (Hkf : fuelAt d <= k) by (unfold fuelBin, fuelAt in *; lia).
  inversion Hr as [p0 a Hp|p0 a b Hp|p0 r l Hp Hl|p0 m da ds Hp Hds]; subst; try (destruct (good_twig Hno _ _ Hgd); fail);
    (eapply costs_load_ok; [exact Hp|]); cbv beta iota.
  - apply costs_has_at. intros []; apply costs_done.
  - apply costs_has_at. intros x. apply costs_has_at. intros y.
    destruct x, y; try apply costs_done; (eapply (costs_one _ _ (fun q => (Some q, 1%Z))); lia).
  - inversion Hr2 as [p0 a2 Hp2|p0 a2 b2 Hp2|p0 r2 l2 Hp2 Hl2|p0 m2 da2 ds2 Hp2 Hds2]; subst;
      (eapply costs_load_ok; [exact Hp2|]); cbv beta iota.
    + eapply costs_up; [apply costs_withoutH; eapply rep_deep; eauto|lia].
    + assert (Hv : vok a2 /\ vok b2) by (inversion Hw2; auto). destruct Hv as [Hv1 Hv2].
      eapply costs_sim with (n1 := 4 * (D - d) + 3) (n2 := 4 * (D - d) + 3);
        [apply sim_without; eauto|eapply (still_without grow Hno); eauto|apply costs_withoutH; eapply rep_deep; eauto|lia|].
      intros [o1 m1] [o1' m1'] h1 E1 K1 [(_ & H1 & S1) _]. cbn [fst snd] in *. destruct H1 as [|q nq H1]; [apply costs_stop; discriminate|].
      eapply costs_any with (n1 := 4 * (D - d) + 3) (n2 := 0); [|lia|intros [o2 mm] h2; apply costs_done].
      apply costs_withoutH. eapply rep_deep; [exact H1|]. apply S1. reflexivity.
    + apply costs_stop. discriminate.
    + assert (Hm : (m < 2 ^ 16)%N) by (apply (wf_branch_inv _ _ _ Hw)).
      eapply costs_any; [|apply (pairCost_branch _ _ _ _ _ Hw Hw2)|intros [data ms] h1; apply costs_parBranch].
      apply (costs_children g d m m2 ds ds2); auto. intros i h1 K1.
      child_cases Hds Hs i Ex En x nx Hx Hsx; child_cases Hds2 Hs2 i Ey Em y ny Hy Hsy; rewrite Ex, Ey, En, ?Em;
        try (apply costs_ret; apply kept_refl); try (apply costs_fail; discriminate).
      apply costs_kept; [|apply adds_kept, adds_differenceH]. assert (Hd : d < D) by (inversion Hs; auto).
      apply IH; eauto using rep_kept, good_child; [inversion Hw2; eauto|apply gaugeOk_sub; auto|unfold fuelBin in *; lia].
Qed.

(** *** Intersection *)

Lemma costs_intersectionH k : forall g h p p2 n n2 d, rep h p n -> rep h p2 n2 -> good d n -> wf d n2 -> gaugeOk g ->
  costs h (intersectionH grow k g p p2 d) (pairCost d n n2) (anyPost (T := T)).
Proof.
  induction k as [|k IH]; intros g h p p2 n n2 d Hr Hr2 Hgd Hw2 Hg; cbn [intersectionH]; [apply costs_stop; discriminate|].
  assert (Hw := good_wf _ _ Hgd). assert (Hs := wf_shape _ _ Hw). assert (Hs2 := wf_shape _ _ Hw2).
  assert (Hone := pairCost_one _ _ _ Hw Hw2). assert (H1 : 1 <= pairCost d n n2) by lia. clear Hone.
  assert (L1 : forall q a q2, costs h (intersectLeaf1H k q a q2 d) (pairCost d n n2) anyPost).
  { intros q a q2. unfold intersectLeaf1H. apply costs_has_at. intros []; apply costs_done. }
  assert (L2 : forall q a b q2, costs h (intersectLeaf2H k q a b q2 d) (pairCost d n n2) anyPost).
  { intros q a b q2. unfold intersectLeaf2H. apply costs_has_at. intros x. apply costs_has_at. intros y.
    destruct x, y; try apply costs_done; (eapply (costs_one _ _ (fun q => (Some q, 1%Z))); lia). }
  inversion Hr as [p0 a Hp|p0 a b Hp|p0 r l Hp Hl|p0 m da ds Hp Hds]; subst; try (destruct (good_twig Hno _ _ Hgd); fail);
    (eapply costs_load_ok; [exact Hp|]); cbv beta iota; auto.
  inversion Hr2 as [p0 a2 Hp2|p0 a2 b2 Hp2|p0 r2 l2 Hp2 Hl2|p0 m2 da2 ds2 Hp2 Hds2]; subst;
    (eapply costs_load_ok; [exact Hp2|]); cbv beta iota; auto; [apply costs_stop; discriminate|].
  destruct (wf_branch_inv _ _ _ Hw) as (_ & Em1 & _ & Hm1), (wf_branch_inv _ _ _ Hw2) as (_ & Em2 & _ & Hm2).
  eapply costs_any; [|apply (pairCost_branch _ _ _ _ _ Hw Hw2)|intros [data ms] h1; apply costs_parBranch].
  apply (costs_children g d m m2 ds ds2); auto; [apply lt_pow_land; auto|]. intros i h1 K1.
  child_cases Hds Hs i Ex En x nx Hx Hsx; child_cases Hds2 Hs2 i Ey Em y ny Hy Hsy; rewrite Ex, ?Ey, En, ?Em; try (apply costs_fail; discriminate).
  apply costs_kept; [|apply adds_kept, adds_intersectionH].
  apply IH; eauto using rep_kept, good_child; [inversion Hw2; eauto|apply gaugeOk_sub; auto].
Qed.

(** *** Combine *)

Lemma costs_with2 k args h p n a b d : rep h p n -> good d n -> vok a -> vok b -> c_eq args = veq -> cfok (vok := vok) (c_f args) ->
  fuelAt d <= k -> costs h (with2H grow k args p a b d) (2 * (4 * (D - d) + 3)) (anyPost (T := T)).
Proof.
  intros Hr Hg Ha Hb Heq Hcf Hk. unfold with2H.
  eapply costs_sim with (n1 := 4 * (D - d) + 3) (n2 := 4 * (D - d) + 3);
    [apply (sim_with grow k args); eauto using good_shape|eapply (still_with grow Hno); eauto|apply costs_withH; eapply rep_deep; eauto using good_shape|lia|].
  intros [q m1] [nq m1'] h1 E1 K1 (_ & H1 & S1). cbn [fst snd] in *.
  eapply costs_any with (n1 := 4 * (D - d) + 3) (n2 := 0); [|lia|intros [q2 m2] h2; apply costs_done].
  apply costs_withH. eapply rep_deep; [exact H1|apply S1].
Qed.

Lemma costs_combineH k : forall args h p p2 n n2 d, rep h p n -> rep h p2 n2 -> wf d n -> wf d n2 -> pref d (elems n ++ elems n2) ->
  c_eq args = veq -> cfok (vok := vok) (c_f args) -> gaugeOk (c_gauge args) -> fuelBin d <= k ->
  costs h (combineH grow k args p p2 d) (pairCost d n n2) (anyPost (T := T)).
Proof.
  induction k as [|k IH]; intros args h p p2 n n2 d Hr Hr2 Hw Hw2 Hpr Heq Hcf Hg Hk; cbn [combineH]; [apply costs_stop; discriminate|].
  assert (Hgd : good d n) by (split; auto; eapply pref_incl; [|exact Hpr]; intros e He; apply in_or_app; auto).
  assert (Hgd2 : good d n2) by (split; auto; eapply pref_incl; [|exact Hpr]; intros e He; apply in_or_app; auto).
  assert (Hs := wf_shape _ _ Hw). assert (Hs2 := wf_shape _ _ Hw2).
  assert (Hone := pairCost_one _ _ _ Hw Hw2). assert (Hkf : fuelAt d <= k) by (unfold fuelBin, fuelAt in *; lia).
  assert (Hcff : cfok (vok := vok) (c_f (flip_args args))) by (cbn; apply cfok_flip; auto).
  assert (Ho : forall e, In e (elems n) -> vok e) by exact (wf_allok _ _ Hw).
  assert (Ho2 : forall e, In e (elems n2) -> vok e) by exact (wf_allok _ _ Hw2).
  assert (H1 : forall (o : obj) (z : Z) h1, costs h1 (q <~ alloc o ;; ret (q, z)) (pairCost d n n2) anyPost).
  { intros o z h1. apply (costs_one _ _ (fun q => (q, z))). lia. }
  assert (H3 : forall data (z : Z) h1, length data <= 4 ->
    costs h1 (sl <~ newSlice data ;; q <~ newBranchFromH grow k d sl ;; ret (q, z)) (pairCost d n n2) anyPost).
  { intros data z h1 Hl. eapply costs_up; [apply costs_splitAll|]. eapply Nat.le_trans; [|exact Hone].
    assert (length data * (4 * (D - d) + 2) <= 4 * (4 * (D - d) + 2)) by (apply Nat.mul_le_mono_r; auto). lia. }
  assert (Hwi : forall eq f q nq v hs, rep h q nq -> shape true d nq -> costs h (withH grow k eq f q v d hs) (pairCost d n n2) anyPost).
  { intros eq f q nq v hs Hq Hsq. eapply costs_up; [apply costs_withH; eapply rep_deep; eauto|lia]. }
  assert (Hw2' : forall args q nq a b, rep h q nq -> good d nq -> vok a -> vok b -> c_eq args = veq -> cfok (vok := vok) (c_f args) ->
    costs h (with2H grow k args q a b d) (pairCost d n n2) anyPost).
  { intros args' q nq a b Hq Hsq Hva Hvb He Hf. eapply costs_up; [eapply costs_with2; eauto|lia]. }
  inversion Hr as [p0 a Hp|p0 a b Hp|p0 r l Hp Hl|p0 m da ds Hp Hds]; subst; try (destruct (good_twig Hno _ _ Hgd); fail);
  inversion Hr2 as [p0 a2 Hp2|p0 a2 b2 Hp2|p0 r2 l2 Hp2 Hl2|p0 m2 da2 ds2 Hp2 Hds2]; subst; try (destruct (good_twig Hno _ _ Hgd2); fail);
    (eapply costs_load_ok; [exact Hp|]); (eapply costs_load_ok; [exact Hp2|]); cbv beta iota zeta.
  - unfold combineLeaf1H. destruct (c_eq _ _ _); apply H1.
  - unfold combineLeaf21H. destruct (c_eq _ _ _); [apply H1|]. destruct (c_eq _ _ _); [apply H1|]. apply H3. cbn. lia.
  - eapply Hwi; eauto.
  - unfold combineLeaf21H. destruct (c_eq _ _ _); [apply H1|]. destruct (c_eq _ _ _); [apply H1|]. apply H3. cbn. lia.
  - unfold combineLeaf2H, combineLeaf2H_step.
    repeat match goal with |- context [if c_eq ?x ?y ?z then _ else _] => destruct (c_eq x y z) end; cbv beta iota;
      first [apply H1 | apply H3; cbn; lia].
  - eapply Hw2'; eauto; apply Ho; cbn; auto.
  - eapply Hwi; eauto.
  - eapply Hw2'; eauto; apply Ho2; cbn; auto.
  - destruct (wf_branch_inv _ _ _ Hw) as (_ & Em1 & _ & Hm1), (wf_branch_inv _ _ _ Hw2) as (_ & Em2 & _ & Hm2).
    eapply costs_any with (n2 := 4); [|apply (pairCost_branch _ _ _ _ _ Hw Hw2)|intros [data ms] h1; apply (costs_one _ _ (fun q => (q, ms))); lia].
    apply (costs_children _ d m m2 ds ds2); auto; [apply lt_pow_lor; auto|]. intros i h1 K1.
    child_cases Hds Hs i Ex En x nx Hx1 Hsx; child_cases Hds2 Hs2 i Ey Em y ny Hy1 Hsy; rewrite Ex, Ey, En, ?Em;
      try (apply costs_ret; apply kept_refl).
    destruct (good_child _ _ _ _ _ Hgd En) as [Wx Px], (good_child _ _ _ _ _ Hgd2 Em) as [Wy Py].
    assert (Hd : d < D) by (inversion Hs; auto).
    assert (Hpc : pref (S d) (elems nx ++ elems ny)).
    { assert (Hcx : forall e, In e (elems nx) -> In e (elems (Branch m ds)) /\ digit d e = i).
      { intros e He. inversion Hw as [| | |d' m' ds' Hd' Hlen Hm Hch Hpl Hl]; subst.
        assert (Hi : In e (elemso (child ds i))) by (rewrite En; auto). split; [|apply Hpl; auto].
        rewrite elems_branch. apply in_flat_map_child. eauto. }
      assert (Hcy : forall e, In e (elems ny) -> In e (elems (Branch m2 ds2)) /\ digit d e = i).
      { intros e He. inversion Hw2 as [| | |d' m' ds' Hd' Hlen Hm Hch Hpl Hl]; subst.
        assert (Hi : In e (elemso (child ds2 i))) by (rewrite Em; auto). split; [|apply Hpl; auto].
        rewrite elems_branch. apply in_flat_map_child. eauto. }
      assert (Hc : forall e, In e (elems nx ++ elems ny) -> In e (elems (Branch m ds) ++ elems (Branch m2 ds2)) /\ digit d e = i).
      { intros e He. apply in_app_or in He as [He|He]; [destruct (Hcx e He)|destruct (Hcy e He)]; split; auto; apply in_or_app; auto. }
      intros e e' He He' j Hj. destruct (Hc e He) as [A1 A2], (Hc e' He') as [B1 B2].
      destruct (Nat.eq_dec j d) as [->|Hn]; [congruence|]. apply Hpr; auto. lia. }
    assert (Hfb : fuelBin (S d) <= k) by (unfold fuelBin in *; lia).
    assert (Hrx : rep h1 x nx) by eauto using rep_kept. assert (Hry : rep h1 y ny) by eauto using rep_kept.
    eapply (sim_kept _ _ ('(r, m) <- combine k (c_sub i args) nx ny (S d) ;; Ok (Some r, m)) (fun _ _ _ => True)).
    + eapply sim_bind; [apply sim_combine; eauto|apply mono_combineH|intros [? ?]; apply mono_ret|].
      intros [q mq] [nq mq'] h2 K2 _. apply sim_ret. exact Logic.I.
    + apply still_bind_any; [|intros [q mq] h2; reflexivity]. eapply (still_combine grow Hno); eauto.
    + eapply costs_any with (n2 := 0); [apply IH; eauto; apply gaugeOk_sub; auto|lia|]. intros [q mq] h2. apply costs_done.
Qed.

(** *** Where that keeps everything *)

Lemma ptrs_eqb_refl a : ptrs_eqb a a = true.
Proof. induction a as [|[x|] a IH]; cbn; auto. rewrite Nat.eqb_refl. auto. Qed.

(** Closures that return the child they look at, and change nothing. *)
Lemma loop_same (F : nat -> M (option nat * Z)) da h order : forall acc data,
  (forall i, In i order -> exists z, F i h = (Ok (childP da i, z), h)) -> (forall i, In i order -> i < length data) ->
  exists data' z, parallelH_loop F order acc data h = (Ok (data', z), h) /\ length data' = length data /\
    forall j, childP data' j = if in_dec Nat.eq_dec j order then childP da j else childP data j.
Proof.
  induction order as [|i order IH]; intros acc data HF Hl; cbn [parallelH_loop]; [exists data, acc; auto|].
  destruct (HF i (or_introl eq_refl)) as [z Hz].
  destruct (IH (acc + z)%Z (set_nth data i (childP da i))) as (data' & z' & H1 & H2 & H3).
  - intros j Hj. apply HF. right. auto.
  - intros j Hj. rewrite set_nth_length. apply Hl. right. auto.
  - exists data', z'. rewrite (bindM_ok _ _ _ _ _ Hz). split; [exact H1|]. split; [rewrite H2; apply set_nth_length|].
    intros j. rewrite H3. unfold childP. destruct (in_dec Nat.eq_dec j order), (in_dec Nat.eq_dec j (i :: order)) as [y|y]; auto.
    + destruct y. right. auto.
    + destruct y as [->|y]; [|contradiction]. apply nth_set_nth_eq. apply Hl. left. auto.
    + apply nth_set_nth_ne. intros ->. apply y. left. auto.
Qed.

Lemma whereH_all k : forall g pred h p n d, rep h p n -> good d n -> gaugeOk g -> fuelBin d <= k -> (forall e, In e (elems n) -> pred e = true) ->
  exists z, whereH grow k g pred p d h = (Ok (Some p, z), h).
Proof.
  induction k as [|k IH]; intros g pred h p n d Hr Hgd Hg Hk Hp; [unfold fuelBin in Hk; lia|]. cbn [whereH].
  assert (Hw := good_wf _ _ Hgd). assert (Hs := wf_shape _ _ Hw).
  inversion Hr as [p0 a Hp0|p0 a b Hp0|p0 r l Hp0 Hl|p0 m da ds Hp0 Hds]; subst; try (destruct (good_twig Hno _ _ Hgd); fail);
    rewrite (bindM_ok _ _ _ _ _ (load_ok _ _ _ Hp0)); cbv beta iota.
  - rewrite (Hp a) by (cbn; auto). exists 1%Z. reflexivity.
  - rewrite (Hp a), (Hp b) by (cbn; auto). exists 2%Z. reflexivity.
  - destruct (wf_branch_inv _ _ _ Hw) as (Hd & Em & _ & Hm). assert (Hlen : length ds = fanout) by (inversion Hw; auto).
    assert (Hdl : length da = fanout) by (rewrite <- Hlen; eapply reps_length; eauto).
    assert (Hin : forall i, In i (par_order g d m) <-> exists c, child ds i = Some c).
    { intros i. rewrite <- mask_indices_updateMask by auto. rewrite <- Em. split; apply Permutation_in; [|apply Permutation_sym]; apply par_order_perm; auto. }
    match goal with |- context [parallelH g d m ?f] => set (F := f) end.
    destruct (loop_same F da h (par_order g d m) 0%Z emptyDataP) as (data & z & H1 & H2 & H3).
    + intros i Hi. apply Hin in Hi as [c Hc]. unfold F. child_cases Hds Hs i Ex En x nx Hx Hsx; [congruence|]. rewrite Ex.
      apply (IH _ _ _ _ nx); auto; [eapply good_child; eauto|apply gaugeOk_sub; auto|unfold fuelBin in *; lia|].
      intros e He. apply Hp. rewrite elems_branch. apply in_flat_map_child. exists i. rewrite En. auto.
    + intros i Hi. unfold emptyDataP. rewrite repeat_length. apply Hin in Hi as [c Hc]. rewrite <- Hlen. unfold child in Hc.
      destruct (Nat.lt_ge_cases i (length ds)); auto. rewrite nth_overflow in Hc by auto. discriminate.
    + assert (Ed : data = da).
      { apply (nth_ext _ _ None None); [rewrite H2, Hdl; apply repeat_length|]. intros j _. specialize (H3 j). unfold childP in H3. rewrite H3.
        destruct (in_dec _ _ _) as [y|y]; auto. child_cases Hds Hs j Ex En x nx Hx Hsx.
        - unfold childP in Ex. rewrite Ex. unfold emptyDataP. apply nth_repeat.
        - destruct y. apply Hin. eauto. }
      subst data. unfold parallelH. rewrite (bindM_ok _ _ _ _ _ H1). cbv beta iota.
      rewrite (updateMaskP_rep _ _ _ Hds), <- Em, N.eqb_refl, ptrs_eqb_refl. exists z. reflexivity.
Qed.

(** ** Trees *)

Lemma size_count h t u n : setRel (vok := vok) h t u -> t_root u = Some n -> Z.to_nat (pt_count t) = size n.
Proof. intros (_ & Hc & Ht) En. rewrite Hc. destruct Ht as [_ Ht]. rewrite Ht. unfold tel. rewrite En. cbn [elemso]. unfold size. lia. Qed.
Lemma min_count h t u n t' u' n' : setRel (vok := vok) h t u -> t_root u = Some n -> setRel (vok := vok) h t' u' -> t_root u' = Some n' ->
  Z.to_nat (Z.min (pt_count t) (pt_count t')) = min (size n) (size n').
Proof. intros H1 E1 H2 E2. rewrite <- (size_count _ _ _ _ H1 E1), <- (size_count _ _ _ _ H2 E2). lia. Qed.

Lemma size_last {A B} h (m : M A) (k : A -> M B) n : costs h m n anyPost -> (forall a h1, costs h1 (k a) 0 anyPost) ->
  hsize (snd (bindM m k h)) <= hsize h + n.
Proof. intros H1 H2. apply (costs_any h m k n 0 n anyPost); auto. lia. Qed.

Lemma costs_tH_where h g pred t u : setRel (vok := vok) h t u -> gaugeOk g ->
  hsize (snd (tH_where grow g pred t h)) <= hsize h + 4 * (D + 1) * Z.to_nat (pt_count t).
Proof.
  intros Hu Hg. pose proof Hu as (Hr & _ & [Hw _]). unfold tH_where.
  destruct (pt_root t) as [p|]; [|cbn; lia]. destruct (t_root u) as [n|] eqn:En; inversion Hr; subst.
  rewrite (size_count _ _ _ _ Hu En).
  eapply size_last; [|intros [o m] h1; apply costs_done].
  replace (D + 1) with (D - 0 + 1) by lia. apply costs_whereH; auto.
Qed.

Lemma costs_tH_combine h args t u t' u' : setRel (vok := vok) h t u -> setRel (vok := vok) h t' u' ->
  c_eq args = veq -> cfok (vok := vok) (c_f args) -> gaugeOk (c_gauge args) ->
  hsize (snd (tH_combine grow args t t' h)) <= hsize h + Cst * (D + 1) * Z.to_nat (Z.min (pt_count t) (pt_count t')).
Proof.
  intros Hu Hu' Heq Hf Hg. pose proof Hu as (Hr & _ & [Hw _]). pose proof Hu' as (Hr' & _ & [Hw' _]). unfold tH_combine.
  destruct (pt_root t) as [p|]; [|cbn; lia]. destruct (pt_root t') as [p'|]; [|cbn; lia].
  destruct (t_root u) as [n|] eqn:En; inversion Hr; subst. destruct (t_root u') as [n'|] eqn:En'; inversion Hr'; subst.
  rewrite (min_count _ _ _ _ _ _ _ Hu En Hu' En').
  eapply size_last; [|intros [o m] h1; apply costs_done].
  replace (D + 1) with (D - 0 + 1) by lia. apply costs_combineH; auto using pref0, treeFuel_bin.
Qed.

Lemma costs_tH_difference h g t u t' u' : setRel (vok := vok) h t u -> setRel (vok := vok) h t' u' -> gaugeOk g ->
  hsize (snd (tH_difference grow g t t' h)) <= hsize h + Cst * (D + 1) * Z.to_nat (Z.min (pt_count t) (pt_count t')).
Proof.
  intros Hu Hu' Hg. pose proof Hu as (Hr & _ & Ht). pose proof Hu' as (Hr' & _ & [Hw' _]). unfold tH_difference.
  destruct (pt_root t) as [p|]; [|cbn; lia]. destruct (pt_root t') as [p'|]; [|cbn; lia].
  destruct (t_root u) as [n|] eqn:En; inversion Hr; subst. destruct (t_root u') as [n'|] eqn:En'; inversion Hr'; subst.
  rewrite (min_count _ _ _ _ _ _ _ Hu En Hu' En').
  eapply size_last; [|intros [o m] h1; apply costs_done].
  replace (D + 1) with (D - 0 + 1) by lia. apply costs_differenceH; eauto using tok_good, treeFuel_bin.
Qed.

Lemma costs_tH_intersection h g t u t' u' : setRel (vok := vok) h t u -> setRel (vok := vok) h t' u' -> gaugeOk g ->
  hsize (snd (tH_intersection grow g t t' h)) <= hsize h + Cst * (D + 1) * Z.to_nat (Z.min (pt_count t) (pt_count t')).
Proof.
  intros Hu Hu' Hg. pose proof Hu as (Hr & _ & Ht). pose proof Hu' as (Hr' & _ & Ht'). assert (Hw := proj1 Ht). assert (Hw' := proj1 Ht'). unfold tH_intersection.
  destruct (pt_root t) as [p|]; [|cbn; lia]. destruct (pt_root t') as [p'|]; [|cbn; lia].
  destruct (t_root u) as [n|] eqn:En; inversion Hr; subst. destruct (t_root u') as [n'|] eqn:En'; inversion Hr'; subst.
  rewrite (min_count _ _ _ _ _ _ _ Hu En Hu' En'). replace (D + 1) with (D - 0 + 1) by lia.
  destruct (_ <? _)%Z.
  - rewrite Nat.min_comm. eapply size_last; [|intros [o m] h1; apply costs_done].
    apply costs_intersectionH; eauto using tok_good.
  - eapply size_last; [|intros [o m] h1; apply costs_done].
    apply costs_intersectionH; eauto using tok_good.
Qed.

Lemma tH_where_all h g pred t u : setRel (vok := vok) h t u -> gaugeOk g -> (forall e, In e (tel u) -> pred e = true) ->
  tH_where grow g pred t h = (Ok t, h).
Proof.
  intros Hu Hg Hp. pose proof Hu as (Hr & Hc & Ht). pose proof (sim_tH_where grow h g pred t u Hu) as Hsim.
  destruct (t_where_ok (vok := vok) g pred u Ht Hg) as (r & E1 & Hr1 & He).
  rewrite E1 in Hsim. destruct t as [[p|] c]; [|reflexivity]. unfold tH_where in *. cbn [pt_root pt_count] in *.
  destruct (t_root u) as [n|] eqn:En; inversion Hr; subst.
  destruct (whereH_all treeFuel g pred h p n 0) as [z Hz]; eauto using tok_good, treeFuel_bin.
  { intros e He'. apply Hp. unfold tel. rewrite En. exact He'. }
  rewrite (bindM_ok _ _ _ _ _ Hz) in *.
  assert (Hst : still h (bindM (whereH grow treeFuel g pred p 0) (fun x => let (o, m) := x in ret (mkPT o m)))).
  { unfold still. rewrite (bindM_ok _ _ _ _ _ Hz). reflexivity. }
  destruct (Hsim Hst) as [_ Ha]. rewrite (bindM_ok _ _ _ _ _ Hz) in Ha. destruct Ha as (t' & E2 & _ & E3).
  injection E2 as <-. cbn [pt_count] in E3. unfold ret. f_equal. f_equal. f_equal. rewrite E3. rewrite (proj2 Hr1), (proj2 Ht), He.
  f_equal. f_equal. clear -Hp. induction (tel u) as [|e l IH]; auto. cbn [filter]. rewrite (Hp e) by (left; auto). f_equal. apply IH. intros x Hx. apply Hp. right. auto.
Qed.

End Bulk.
