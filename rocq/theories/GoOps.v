(** * GoOps: the goroutines of the parallel trie operations. *)
From Verif Require Import Base Bits Env EnvFacts Node NodeWf NodeAdd NodeRemove NodeBin NodeBin2 NodeUn Iter Tree TreeFacts
  SetApi MapApi Concurrency ConcOps ConcApi Goroutines.

Section GoOps.
Local Opaque maxTreeDepth fanout fb.
Context {E : Env}.

(** The number of goroutines below a branch if [j] further levels of the trie are visited in parallel: a branch starts one
    for each of its children (gauge.go:58-64), which do the same. *)
Fixpoint budget (j : nat) : nat := match j with O => 0 | S j' => fanout * S (budget j') end.

Section Rules.
Context {A X F : Type}.
Notation gprog := (gprog A X F).
Notation worker := (worker A X F).
Notation New := (@New A X F fanout).
Notation NewW := (@NewW A X F fanout).
Notation Tame := (@Tame A X F fanout).

Lemma fresh_fork (ws : list worker) sh ch need acc k : fresh (GFork ws sh ch need acc k) = freshWs ws.
Proof. induction ws as [|w ws IH]; simpl in *; auto. Qed.

Lemma new_ret m n a : New m n (GRet a).
Proof. exists 0. split; [simpl; lia|constructor]. Qed.

Lemma new_lift n (r : res A) : New true n (liftG r).
Proof. exists 0. destruct r; simpl; split; try lia; constructor; auto. Qed.

Lemma new_mono m n n' g : New m n g -> n <= n' -> New m n' g.
Proof. intros (a & H1 & H2) H. exists a. split; auto; lia. Qed.

Lemma new_load m n k : (forall c, New m n (k c)) -> New m n (GLoad k).
Proof. intros H. exists n. split; [simpl; lia|]. constructor. auto. Qed.

Lemma new_store n f k : New true n k -> New true n (GStore f k).
Proof. intros (a & H1 & H2). exists n. split; [simpl; lia|]. econstructor; eauto. Qed.

Lemma tame_bind m (g : gprog) : forall n f, (forall a, New m 0 (f a)) -> Tame m n g ->
  Tame m n (gbind g f) /\ fresh (gbind g f) = fresh g.
Proof.
  apply (gind (fun g => forall n f, (forall a, New m 0 (f a)) -> Tame m n g -> Tame m n (gbind g f) /\ fresh (gbind g f) = fresh g) (fun _ => True)); auto.
  - intros a n f Hf _. destruct (Hf a) as (n' & H1 & H2). simpl. split; [eapply tame_mono; eauto; lia|lia].
  - intros k IH n f Hf H. simpl. split; auto. constructor. intros c. destruct (tame_load_inv _ _ _ _ H c) as (n' & H1 & H2).
    destruct (IH c n' f Hf H2) as [H3 H4]. exists n'. split; auto. rewrite H4. auto.
  - intros x k IH n f Hf H. simpl. split; auto. destruct (tame_store_inv _ _ _ _ _ H) as (Hm & n' & H1 & H2).
    destruct (IH n' f Hf H2) as [H3 H4]. apply tm_store with n'; auto. rewrite H4. auto.
  - intros ws sh ch need acc k _ IH n f Hf H. destruct (tame_fork_inv _ _ _ _ _ _ _ _ _ H) as (n1 & n2 & F1 & F2 & F3 & F4 & F5 & F6).
    cbn [gbind]. split; [|rewrite !fresh_fork; auto]. apply tm_fork with n1 n2; auto.
    intros b z s Hb. destruct (F6 b z s Hb) as (n' & H1 & H2). destruct (IH b z s n' f Hf H2) as [H3 H4]. exists n'. rewrite H4. auto.
Qed.

Lemma new_bind m n g f : New m n g -> (forall a, New m 0 (f a)) -> New m n (gbind g f).
Proof. intros (n' & H1 & H2) Hf. destruct (tame_bind m g n' f Hf H2) as [H3 H4]. exists n'. rewrite H4. auto. Qed.

Lemma runActs_tame m (a : wact X) : forall sh, actTame m a -> m = true -> fst (fst (runActs a sh)) = true.
Proof. induction a; intros sh Ht Hm; simpl in *; auto. Qed.

Lemma new_seq m (W : nat -> worker) (k : bool -> Z -> shared X -> gprog) : forall order acc sh,
  (forall i, In i order -> NewW m 0 (W i) /\ W i <> WGone) ->
  (forall b z s, (m = true -> b = true) -> New m 0 (k b z s)) -> New m 0 (seqLoop W order acc sh k).
Proof.
  induction order as [|i order IH]; intros acc sh HW Hk; cbn [seqLoop]; [apply Hk; auto|].
  destruct (HW i (or_introl eq_refl)) as [(n' & Hn & Ht) Hg].
  assert (Hgo : forall a, actTame m a -> New m 0 (let '(ok, x, sh') := runActs a sh in
      if ok then seqLoop W order (acc + x) sh' k else k false acc sh')).
  { intros a Ha. pose proof (runActs_tame m a sh Ha) as Hr. destruct (runActs a sh) as [[ok x] sh']. cbn [fst] in Hr.
    destruct ok; [apply IH; auto; intros; apply HW; right; auto|apply Hk; auto]. }
  destruct (W i) as [g fin|a|]; [| |congruence].
  - apply tameW_run_inv in Ht as [Ht Hf]. apply new_bind; [exists n'; auto|]. intros a. apply Hgo. auto.
  - apply tameW_act_inv in Ht. apply Hgo. auto.
Qed.

Lemma new_workers m b (W : nat -> worker) idx : (forall i, In i idx -> NewW m b (W i) /\ W i <> WGone) ->
  alive (map W idx) = length idx /\ exists n, freshWs (map W idx) + n <= length idx * S b /\ TameWs fanout m n (map W idx).
Proof.
  induction idx as [|i idx IH]; intros H; simpl.
  - split; auto. exists 0. split; auto. constructor.
  - destruct (H i (or_introl eq_refl)) as [(n1 & H1 & H2) Hg]. destruct IH as (Ha & n2 & H3 & H4); [intros; apply H; right; auto|].
    split.
    + unfold alive in *. simpl. destruct (W i); simpl in *; try congruence; f_equal; auto.
    + exists (n1 + n2). split; [lia|]. eapply tws_cons; eauto.
Qed.

Lemma mask_length mask : maskOk mask -> length (mask_indices mask) <= fanout.
Proof.
  intros Hm. rewrite <- (seq_length fanout 0). apply NoDup_incl_length.
  - apply mask_indices_NoDup. apply Hm.
  - intros i Hi. apply in_seq. apply (maskOk_lt mask) in Hi; auto. lia.
Qed.

(** A call of [Parallel] at depth [d]. *)
Lemma new_parallel m limit d mask (W : nat -> worker) sh k : maskOk mask ->
  (forall i, In i (mask_indices mask) -> NewW m (budget (Z.to_nat (limit - Z.of_nat (S d)))) (W i) /\ W i <> WGone) ->
  (forall b z s, (m = true -> b = true) -> New m 0 (k b z s)) ->
  New m (budget (Z.to_nat (limit - Z.of_nat d))) (forkOrLoop limit d mask W sh k).
Proof.
  intros Hm HW Hk. unfold forkOrLoop. destruct (Z.ltb_spec (Z.of_nat d) limit) as [Hl|Hl].
  - destruct (new_workers m _ W (mask_indices mask) HW) as (Ha & n & H1 & H2). pose proof (mask_length mask Hm) as Hlen.
    replace (Z.to_nat (limit - Z.of_nat d)) with (S (Z.to_nat (limit - Z.of_nat (S d)))) by lia. cbn [budget].
    exists n. rewrite fresh_fork. split.
    + eapply Nat.le_trans; [exact H1|]. apply Nat.mul_le_mono_r. exact Hlen.
    + apply tm_fork with n 0; auto; simpl; lia.
  - replace (Z.to_nat (limit - Z.of_nat d)) with 0 by lia. replace (Z.to_nat (limit - Z.of_nat (S d))) with 0 in HW by lia.
    apply new_seq; auto.
Qed.

Lemma newW_act m n a : actTame m a -> NewW m n (WAct a) /\ (WAct a : worker) <> WGone.
Proof. intros H. split; [|discriminate]. exists 0. split; [simpl; lia|]. constructor; auto. Qed.
Lemma newW_run m n g fin : New m n g -> (forall a, actTame m (fin a)) -> NewW m n (WRun g fin) /\ WRun g fin <> WGone.
Proof. intros (n' & H1 & H2) H. split; [|discriminate]. exists n'. split; auto. constructor; auto. Qed.
End Rules.

Context {T : Type} {K : Key T} {vok : T -> Prop} {KO : KeyOk K vok}.
Notation node := (node T).
Notation wf := (wf vok).
Notation levels limit d := (budget (Z.to_nat (limit - Z.of_nat d))).

Lemma wf_mask d m data : wf d (Branch m data) -> maskOk m.
Proof. intros H. inversion H; subst. apply maskOk_update; auto. Qed.
Lemma wf_children d m data i x : child data i = Some x -> wf d (Branch m data) -> wf (S d) x.
Proof. intros Hi H. inversion H; subst. eauto. Qed.

Lemma combine_new fuel : forall limit eq f d n n2, wf d n -> wf d n2 -> New fanout true (levels limit d) (combineC fuel limit eq f n n2 d).
Proof.
  induction fuel as [|k IH]; intros limit eq f d n n2 H1 H2; [apply (new_lift _ Panic)|].
  assert (Hflip : forall g : (T -> T -> T) -> res (node * Z), New fanout true (levels limit d) (flipThen (X := node) f (fun f' => liftG (g f'))) ).
  { intros g. unfold flipThen. apply new_load. intros [c|].
    - apply new_load. intros [c'|]; [apply new_lift|apply (new_lift _ Panic)].
    - apply new_store. apply new_load. intros [c'|]; [apply new_lift|apply (new_lift _ Panic)]. }
  destruct n as [a|a b|l|m1 d1], n2 as [x|x y|l2|m2 d2]; cbn [combineC]; try apply new_lift; try (apply (Hflip (fun f' => combine (S k) (pargs eq f') _ _ d))).
  apply new_parallel; [apply maskOk_lor; eapply wf_mask; eauto| |intros; apply new_lift].
  intros i _. destruct (child d1 i) as [x|] eqn:Ex, (child d2 i) as [y|] eqn:Ey; try (apply newW_act; simpl; auto; fail).
  apply newW_run; [|simpl; auto]. apply IH; eapply wf_children; eauto.
Qed.

Lemma difference_new fuel : forall limit d n n2, wf d n -> wf d n2 -> New fanout true (levels limit d) (differenceC fuel limit n n2 d).
Proof.
  induction fuel as [|k IH]; intros limit d n n2 H1 H2; [apply (new_lift _ Panic)|].
  destruct n as [a|a b|l|m1 d1], n2 as [x|x y|l2|m2 d2]; cbn [differenceC]; try apply new_lift.
  apply new_parallel; [eapply wf_mask; eauto| |intros; apply new_lift].
  intros i _. destruct (child d1 i) as [x|] eqn:Ex, (child d2 i) as [y|] eqn:Ey; try (apply newW_act; simpl; auto; fail).
  - apply newW_run; [|simpl; auto]. apply IH; eapply wf_children; eauto.
  - apply newW_run; [apply (new_lift _ Panic)|simpl; auto].
Qed.

Lemma intersection_new fuel : forall limit d n n2, wf d n -> wf d n2 -> New fanout true (levels limit d) (intersectionC fuel limit n n2 d).
Proof.
  induction fuel as [|k IH]; intros limit d n n2 H1 H2; [apply (new_lift _ Panic)|].
  destruct n as [a|a b|l|m1 d1], n2 as [x|x y|l2|m2 d2]; cbn [intersectionC]; try apply new_lift.
  apply new_parallel; [apply maskOk_land; eapply wf_mask; eauto| |intros; apply new_lift].
  intros i _. destruct (child d1 i) as [x|] eqn:Ex, (child d2 i) as [y|] eqn:Ey;
    (apply newW_run; [try apply (new_lift _ Panic)|simpl; auto]).
  apply IH; eapply wf_children; eauto.
Qed.

Lemma where_new fuel : forall limit pred d n, wf d n -> New fanout true (levels limit d) (whereC fuel limit pred n d).
Proof.
  induction fuel as [|k IH]; intros limit pred d n H1; [apply (new_lift _ Panic)|].
  destruct n as [a|a b|l|m1 d1]; cbn [whereC]; try apply new_lift.
  apply new_parallel; [eapply wf_mask; eauto| |intros; apply new_lift].
  intros i _. destruct (child d1 i) as [x|] eqn:Ex;
    (apply newW_run; [try apply (new_lift _ Panic)|simpl; auto]).
  apply IH; eapply wf_children; eauto.
Qed.

Lemma reduce_new fuel : forall limit r d n, wf d n -> New fanout true (levels limit d) (reduceC fuel limit r n d).
Proof.
  induction fuel as [|k IH]; intros limit r d n H1; [apply (new_lift _ Panic)|].
  destruct n as [a|a b|l|m1 d1]; cbn [reduceC]; try apply new_lift.
  apply new_parallel; [eapply wf_mask; eauto| |intros; apply new_lift].
  intros i _. destruct (child d1 i) as [x|] eqn:Ex;
    (apply newW_run; [try apply (new_lift _ Panic)|simpl; auto]).
  apply IH; eapply wf_children; eauto.
Qed.

Lemma new_ok {A X F} n (r : res A) a : r = Ok a -> New (X := X) (F := F) fanout false n (liftG r).
Proof. intros ->. apply new_ret. Qed.

Lemma subsetOf_new fuel : forall limit d n n2, wf d n -> wf d n2 -> fuelBin d <= fuel ->
  New fanout false (levels limit d) (subsetOfC fuel limit n n2 d).
Proof.
  induction fuel as [|k IH]; intros limit d n n2 H1 H2 Hf; [unfold fuelBin in Hf; lia|].
  destruct (isBranch n && isBranch n2) eqn:Hb.
  2:{ destruct (subsetOf_wf (vok := vok) (S k) (mkGauge (-1) (fun _ l => l)) d n n2) as (b & Eb & _); auto; [intros p l; auto|].
      destruct n, n2; try discriminate Hb; cbn [subsetOfC]; eapply new_ok; exact Eb. }
  unfold fuelBin in Hf.
  destruct n as [a|a b|l|m1 d1]; try discriminate Hb. destruct n2 as [x|x y|l2|m2 d2]; try discriminate Hb. cbn [subsetOfC].
  inversion H1 as [| | |d' m' data' Hd _ _ _ _ _]; subst d' m' data'.
  apply new_parallel; [apply maskOk_lor; eapply wf_mask; eauto| |intros; apply new_ret].
  intros i _. destruct (child d1 i) as [x|] eqn:Ex, (child d2 i) as [y|] eqn:Ey; try (apply newW_act; simpl; auto; discriminate).
  apply newW_run; [|simpl; discriminate]. apply IH; try (eapply wf_children; eauto). unfold fuelBin. lia.
Qed.

Lemma equal_new fuel : forall limit eq d n n2, wf d n -> wf d n2 -> fuelBin d <= fuel ->
  New fanout false (levels limit d) (equalC fuel limit eq n n2 d).
Proof.
  induction fuel as [|k IH]; intros limit eq d n n2 H1 H2 Hf; [unfold fuelBin in Hf; lia|].
  destruct (isBranch n && isBranch n2) eqn:Hb.
  2:{ assert (exists b, equal (S k) NonParallel eq n n2 d = Ok b) as (b & Eb).
      { destruct n as [a|a b|l|m1 d1], n2 as [x|x y|l2|m2 d2]; try discriminate Hb; cbn [equal]; eauto.
        destruct (length l =? length l2); eauto. }
      destruct n, n2; try discriminate Hb; cbn [equalC]; eapply new_ok; exact Eb. }
  unfold fuelBin in Hf.
  destruct n as [a|a b|l|m1 d1]; try discriminate Hb. destruct n2 as [x|x y|l2|m2 d2]; try discriminate Hb. cbn [equalC].
  inversion H1 as [| | |d' m' data' Hd Hlen1 Hm1 _ _ _]; subst d' m' data'.
  inversion H2 as [| | |d' m' data' _ Hlen2 Hm2 _ _ _]; subst d' m' data'.
  destruct (N.eqb_spec m1 m2) as [Hmm|Hmm]; [|apply new_ret].
  apply new_parallel; [eapply wf_mask; eauto| |intros; apply new_ret].
  intros i Hi. pose proof Hi as Hi2. rewrite Hm1 in Hi. rewrite Hmm, Hm2 in Hi2.
  apply mask_indices_updateMask in Hi as (x & Ex); auto. apply mask_indices_updateMask in Hi2 as (y & Ey); auto. rewrite Ex, Ey.
  apply newW_run; [|simpl; discriminate]. apply IH; try (eapply wf_children; eauto). unfold fuelBin. lia.
Qed.

End GoOps.
