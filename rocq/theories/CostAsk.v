(** * CostAsk: With, Without, Add and Remove ask what Get asks, and more only to split a leaf (C58). *)
From Verif Require Import Base Bits Env EnvFacts Node NodeWf NodeAdd NodeRemove NodeBin NodeBin2 NodeUn Tree TreeFacts Clash Cost CostFacts.
Local Open Scope nat_scope.

Local Notation "x <c m ;; k" := (cbind m (fun x => k)) (at level 61, m at next level, right associativity).

Section CostAsk.
Context {E : Env} {HE : EnvOk E} {T : Type} {K : Key T} {vok : T -> Prop} {KO : KeyOk K vok}.
Notation node := (node T).
Notation ask := (ask T).
Notation wf := (wf vok).
Notation D := maxTreeDepth.
Local Opaque maxTreeDepth fanout fb.

(** The calls of [Get], then at most [k] hashes and [k] comparisons, and none if [Get] finds the element. *)
Definition getThen (fuel : nat) (n : node) (v : T) (h : N) (k : nat) (tr : list ask) : Prop :=
  exists o t0 rest, getC fuel n v h = Ok (o, t0) /\ tr = t0 ++ rest /\ (o <> None -> rest = []) /\ atMost k k rest.

Lemma getThen_only fuel n v h k tr o : getC fuel n v h = Ok (o, tr) -> getThen fuel n v h k tr.
Proof. intros H. exists o, tr, []. rewrite app_nil_r. repeat split; auto; cbn; lia. Qed.
Lemma getThen_le fuel n v h k k' tr : k <= k' -> getThen fuel n v h k tr -> getThen fuel n v h k' tr.
Proof. intros Hk (o & t0 & rest & H1 & H2 & H3 & H4). exists o, t0, rest. repeat split; auto; destruct H4; lia. Qed.

Lemma nothing (tr : list ask) : atMost 0 0 tr -> tr = [].
Proof.
  intros [H1 H2]. unfold hashes, compares in *. destruct tr as [|q tr]; auto. cbn [filter] in *.
  destruct (isHash q); cbn in *; lia.
Qed.

Lemma findC_asks l v : findC l v = Ok (find (fun e => veq e v) l, asks v (upto (fun e => veq e v) l)).
Proof. pose proof (findC_cost l v) as (tr & -> & ->). reflexivity. Qed.

Lemma replaceFirstC_asks f (l : list T) v :
  cost (replaceFirstC veq f l v) (Ok (replaceFirst (fun e => veq e v) (fun e => f e v) l)) (fun tr => tr = asks v (upto (fun e => veq e v) l)).
Proof.
  induction l as [|e l IH]; cbn [replaceFirstC replaceFirst upto]; [apply cost_ret; auto|].
  apply cost_ifeqP. destruct (veq e v); [apply cost_ret; reflexivity|].
  destruct IH as (tr & Er & ->). rewrite Er. eexists. split; [unfold cbind; cbn [bind fst snd]|reflexivity].
  destruct (replaceFirst _ _ l); cbn; rewrite app_nil_r; reflexivity.
Qed.
Lemma replaceFirst_find f (l : list T) v : replaceFirst (fun e => veq e v) (fun e => f e v) l = None -> find (fun e => veq e v) l = None.
Proof.
  induction l as [|e l IH]; cbn [replaceFirst find]; auto. destruct (veq e v); [discriminate|].
  destruct (replaceFirst _ _ l); [discriminate|auto].
Qed.
Lemma findIndexC_asks l v : cost (findIndexC l v) (Ok (findIndex (fun e => veq e v) l)) (fun tr => tr = asks v (upto (fun e => veq e v) l)).
Proof.
  induction l as [|e l IH]; cbn [findIndexC findIndex upto]; [apply cost_ret; auto|].
  apply cost_ifeqP. destruct (veq e v); [apply cost_ret; reflexivity|].
  destruct IH as (tr & Er & ->). rewrite Er. eexists. split; [unfold cbind; cbn [bind fst snd]|reflexivity].
  destruct (findIndex _ l); cbn; rewrite app_nil_r; reflexivity.
Qed.

Lemma getC_leaf1 fuel a v h : getC (S fuel) (Leaf1 a) v h = Ok (if veq a v then Some a else None, [AEq a v]).
Proof. reflexivity. Qed.
Lemma getC_leaf2 fuel a b v h : getC (S fuel) (Leaf2 a b) v h =
  if veq a v then Ok (Some a, [AEq a v]) else Ok (if veq b v then Some b else None, [AEq a v; AEq b v]).
Proof. cbn [getC]. unfold cbind, eqC; cbn [bind fst snd]. destruct (veq a v); reflexivity. Qed.
Lemma getC_branch fuel m data v d : getC (S fuel) (Branch m data) v (newHasher v d) =
  match child data (digit d v) with Some c => getC fuel c v (newHasher v (S d)) | None => Ok (None, []) end.
Proof. cbn [getC]. fold (digit d v). destruct (child data (digit d v)); auto. rewrite <- newHasher_S. reflexivity. Qed.

(** leaf2 nodes split. *)
Lemma splitLeaf fuel d a b v : wf d (Leaf2 a b) -> vok v -> veq a v = false -> veq b v = false ->
  (d < D -> addB (vok := vok) d fuel) -> (d < D -> addCostB (vok := vok) d fuel) -> forall fuel',
  cost (n' <c newBranchFromC fuel d [a; b; v] ;; cret (n', 0%Z)) (n' <- newBranchFrom fuel d [a; b; v] ;; Ok (n', 0%Z))
    (fun tr => getThen (S fuel') (Leaf2 a b) v (newHasher v d) (3 * (D - d)) (AEq a v :: AEq b v :: tr)).
Proof.
  intros Hwf Hv E1 E2 HB HC fuel'. inversion Hwf as [|d' a' b' Hd Ha Hb Hab| |]; subst.
  apply (cost_weak _ _ (atMost (3 * (D - d)) (3 * (D - d)))); [eapply (cost_seq _ _ _ _ (3 * (D - d)) (3 * (D - d)) 0 0); [apply (newBranchFrom3_cost (vok := vok))| |lia|lia]|]; auto.
  - apply distinct3; auto.
  - intros e [<-|[<-|[<-|[]]]]; auto.
  - intros r _. apply cost_ret, (atMost_nil 0 0).
  - intros tr Ht. exists None, [AEq a v; AEq b v], tr. rewrite getC_leaf2, E1, E2. repeat split; try apply Ht. congruence.
Qed.

Lemma withC_asks fuel : forall d args n v, fuelAt d <= fuel -> c_eq args = veq -> wf d n -> vok v ->
  cost (withC fuel (c_eq args) (c_f args) n v d (newHasher v d)) (with_ fuel args n v d (newHasher v d)) (getThen fuel n v (newHasher v d) (3 * (D - d))).
Proof.
  induction fuel as [|fuel IH]; intros d args n v Hf Heq Hwf Hv; [reflexivity|].
  pose proof (wf_depth _ _ Hwf) as HdD. unfold fuelAt in Hf. pose proof Hwf as Hwf0.
  inversion Hwf as [d' a Hd Ha|d' a b Hd Ha Hb Hab|d' l Hd Hl Hok Hdis|d' mk data Hd Hlen Hm Hch Hp Hl]; subst d' n; cbn [withC with_]; rewrite ?Heq.
  - apply cost_ifeqP. destruct (veq a v); apply cost_ret; eapply getThen_only; apply getC_leaf1.
  - apply cost_ifeqP. destruct (veq a v) eqn:E1; [apply cost_ret; eapply getThen_only; rewrite getC_leaf2, E1; reflexivity|].
    apply cost_ifeqP. destruct (veq b v) eqn:E2; [apply cost_ret; eapply getThen_only; rewrite getC_leaf2, E1; reflexivity|].
    apply splitLeaf; auto; intros Hlt; [apply (addB_fuel (vok := vok)); lia|apply (addCostB_fuel (vok := vok)); lia].
  - eapply cost_res; [eapply cost_bind with (k' := fun o => match o with Some l' => Ok (Twig l', 1%Z)
        | None => o <- canonicalTwig fuel d (l ++ [v]) ;; match o with Some n' => Ok (n', 0%Z) | None => Panic end end);
      [apply (replaceFirstC_asks (c_f args))|]|].
    + intros o tr Eo ->.
      assert (Hg : forall x, x = [] -> getThen (S fuel) (Twig l) v (newHasher v d) (3 * (D - d)) (asks v (upto (fun e => veq e v) l) ++ x)).
      { intros x ->. rewrite app_nil_r. eapply getThen_only. cbn [getC]. apply findC_asks. }
      destruct o as [l'|]; [apply cost_ret; auto|].
      eapply cost_bind; [apply (canonicalTwigC_max); lia|]. intros [n'|] tr _ Ht; [|reflexivity].
      apply cost_ret. rewrite app_nil_r. apply Hg, nothing; auto.
    + cbn [bind]. destruct (replaceFirst _ _ l); auto.
  - fold (digit d v). pose proof (getC_branch fuel mk data v d) as Hg. destruct (child data (digit d v)) as [c|] eqn:Ec.
    + rewrite <- newHasher_S. assert (IHc := IH (S d) args c v ltac:(unfold fuelAt; lia) Heq (Hch _ _ Ec) Hv). rewrite Heq in IHc. eapply cost_bind; [exact IHc|].
      intros [r m] tr _ (o & t0 & rest & H1 & -> & H3 & H4). apply (cost_ret (A := node * Z)). rewrite app_nil_r.
      exists o, t0, rest. rewrite Hg. repeat split; auto; destruct H4; lia.
    + apply cost_ret. eapply getThen_only; eauto.
Qed.

Lemma withFastC_asks fuel d n v : fuelAt d <= fuel -> wf d n -> vok v ->
  cost (withC fuel veq (fun _ v => v) n v d (newHasher v d)) (withFast fuel n v d (newHasher v d)) (getThen fuel n v (newHasher v d) (3 * (D - d))).
Proof.
  intros Hf Hwf Hv. rewrite (withFast_with NonParallel). apply (withC_asks fuel d (mkCombineArgs NonParallel veq (fun _ v => v))); auto.
Qed.

Lemma addFastC_asks fuel : forall d n v, fuelAt d <= fuel -> wf d n -> vok v ->
  cost (addFastC fuel n v d (newHasher v d)) (addFast fuel n v d (newHasher v d)) (getThen fuel n v (newHasher v d) (3 * (D - d))).
Proof.
  induction fuel as [|fuel IH]; intros d n v Hf Hwf Hv; [reflexivity|].
  pose proof (wf_depth _ _ Hwf) as HdD. unfold fuelAt in Hf.
  inversion Hwf as [d' a Hd Ha|d' a b Hd Ha Hb Hab|d' l Hd Hl Hok Hdis|d' mk data Hd Hlen Hm Hch Hp Hl]; subst d' n; cbn [addFastC addFast].
  - apply cost_ifeqP. destruct (veq a v); apply cost_ret; eapply getThen_only; apply getC_leaf1.
  - apply cost_ifeqP. destruct (veq a v) eqn:E1; [apply cost_ret; eapply getThen_only; rewrite getC_leaf2, E1; reflexivity|].
    apply cost_ifeqP. destruct (veq b v) eqn:E2; [apply cost_ret; eapply getThen_only; rewrite getC_leaf2, E1; reflexivity|].
    apply (splitLeaf fuel d a b v); auto; intros Hlt; [apply (addB_fuel (vok := vok)); lia|apply (addCostB_fuel (vok := vok)); lia].
  - eapply cost_res; [eapply cost_bind with (k' := fun o => match o with Some l' => Ok (Twig l', 1%Z) | None => Ok (Twig (l ++ [v]), 0%Z) end);
      [apply (replaceFirstC_asks (fun _ v => v))|]|].
    + intros o tr Eo ->.
      assert (Hg : getThen (S fuel) (Twig l) v (newHasher v d) (3 * (D - d)) (asks v (upto (fun e => veq e v) l) ++ [])).
      { rewrite app_nil_r. eapply getThen_only. cbn [getC]. apply findC_asks. }
      destruct o as [l'|]; [apply cost_ret; auto|]. destruct (Nat.leb_spec D d); [|lia]. apply cost_ret. auto.
    + cbn [bind]. destruct (replaceFirst _ _ l); auto. destruct (Nat.leb_spec D d); [auto|lia].
  - fold (digit d v). pose proof (getC_branch fuel mk data v d) as Hg. destruct (child data (digit d v)) as [c|] eqn:Ec.
    + rewrite <- newHasher_S. eapply cost_bind; [apply IH; eauto; unfold fuelAt; lia|].
      intros [r m] tr _ (o & t0 & rest & H1 & -> & H3 & H4). apply (cost_ret (A := node * Z)). rewrite app_nil_r.
      exists o, t0, rest. rewrite Hg. repeat split; auto; destruct H4; lia.
    + apply cost_ret. eapply getThen_only; eauto.
Qed.

(** The calls of [Get]. *)
Definition getOnly (fuel : nat) (n : node) (v : T) (h : N) (tr : list ask) : Prop := exists o, getC fuel n v h = Ok (o, tr).

Lemma withoutC_asks fuel : forall d n v, wf d n -> vok v ->
  cost (withoutC fuel n v d (newHasher v d)) (without fuel n v d (newHasher v d)) (getOnly fuel n v (newHasher v d)).
Proof.
  induction fuel as [|fuel IH]; intros d n v Hwf Hv; [reflexivity|].
  inversion Hwf as [d' a Hd Ha|d' a b Hd Ha Hb Hab|d' l Hd Hl Hok Hdis|d' mk data Hd Hlen Hm Hch Hp Hl]; subst d' n; cbn [withoutC without].
  - apply cost_ifeqP. destruct (veq a v); apply cost_ret; eexists; apply getC_leaf1.
  - apply cost_ifeqP. destruct (veq a v) eqn:E1; [apply cost_ret; eexists; rewrite getC_leaf2, E1; reflexivity|].
    apply cost_ifeqP. destruct (veq b v) eqn:E2; apply cost_ret; eexists; rewrite getC_leaf2, E1; reflexivity.
  - eapply (cost_bind _ (Ok (findIndex (fun e => veq e v) l)) _ (fun o => match o with
        | Some i => o <- canonicalTwig fuel d (swapRemove l i v) ;; Ok (o, 1%Z) | None => Ok (Some (Twig l), 0%Z) end)); [apply findIndexC_asks|].
    intros o tr _ ->.
    assert (Hg : getOnly (S fuel) (Twig l) v (newHasher v d) (asks v (upto (fun e => veq e v) l) ++ [])).
    { rewrite app_nil_r. eexists. cbn [getC]. apply findC_asks. }
    destruct o as [i|]; [|apply cost_ret; auto].
    eapply cost_bind; [apply (canonicalTwigC_max); lia|]. intros o tr _ Ht. apply nothing in Ht. subst tr. apply cost_ret. auto.
  - fold (digit d v). pose proof (getC_branch fuel mk data v d) as Hg. destruct (child data (digit d v)) as [c|] eqn:Ec; [|apply cost_ret; eexists; eauto].
    rewrite <- newHasher_S. eapply cost_bind; [apply IH; eauto|]. intros [o m] tr _ (x & Hx).
    assert (Hr : getOnly (S fuel) (Branch mk data) v (newHasher v d) (tr ++ [])) by (rewrite app_nil_r; eexists; rewrite Hg; eauto).
    destruct (m =? 0)%Z; [apply (cost_ret (A := option node * Z)); auto|].
    eapply cost_bind; [apply (canonicalC_branch)|]. intros o' tr' _ Ht. apply nothing in Ht. subst tr'. apply cost_ret. auto.
Qed.

Lemma removeC_asks fuel : forall d n v, wf d n -> vok v ->
  cost (removeC fuel n v d (newHasher v d)) (remove_ fuel n v d (newHasher v d)) (getOnly fuel n v (newHasher v d)).
Proof.
  induction fuel as [|fuel IH]; intros d n v Hwf Hv; [reflexivity|].
  inversion Hwf as [d' a Hd Ha|d' a b Hd Ha Hb Hab|d' l Hd Hl Hok Hdis|d' mk data Hd Hlen Hm Hch Hp Hl]; subst d' n; cbn [removeC remove_].
  - apply cost_ifeqP. destruct (veq a v); apply cost_ret; eexists; apply getC_leaf1.
  - apply cost_ifeqP. destruct (veq a v) eqn:E1; [apply cost_ret; eexists; rewrite getC_leaf2, E1; reflexivity|].
    apply cost_ifeqP. destruct (veq b v) eqn:E2; apply cost_ret; eexists; rewrite getC_leaf2, E1; reflexivity.
  - eapply (cost_bind _ (Ok (findIndex (fun e => veq e v) l)) _ (fun o => match o with
        | Some i => if (length l - 1 =? 0)%nat then Ok (None, 1%Z) else o <- canonicalTwig fuel d (swapRemove l i v) ;; Ok (o, 1%Z)
        | None => Ok (Some (Twig l), 0%Z) end)); [apply findIndexC_asks|].
    intros o tr _ ->.
    assert (Hg : getOnly (S fuel) (Twig l) v (newHasher v d) (asks v (upto (fun e => veq e v) l) ++ [])).
    { rewrite app_nil_r. eexists. cbn [getC]. apply findC_asks. }
    destruct o as [i|]; [|apply cost_ret; auto]. destruct (length l - 1 =? 0); [apply cost_ret; auto|].
    eapply cost_bind; [apply (canonicalTwigC_max); lia|]. intros o tr _ Ht. apply nothing in Ht. subst tr. apply cost_ret. auto.
  - fold (digit d v). pose proof (getC_branch fuel mk data v d) as Hg. destruct (child data (digit d v)) as [c|] eqn:Ec; [|apply cost_ret; eexists; eauto].
    rewrite <- newHasher_S. eapply cost_bind; [apply IH; eauto|]. intros [o m] tr _ (x & Hx). cbv zeta.
    assert (Hr : getOnly (S fuel) (Branch mk data) v (newHasher v d) (tr ++ [])) by (rewrite app_nil_r; eexists; rewrite Hg; eauto).
    destruct o as [[a|a b|l|m2 d2]|]; try (apply cost_ret; exact Hr);
      (destruct (appendTo maxLeafLen _ []) as [es|]; [|apply cost_ret; exact Hr]);
      (eapply cost_bind; [apply (cost_lift _ (fun tr => tr = [])); reflexivity|]);
      intros l' tr' _ ->; apply cost_ret; exact Hr.
Qed.

End CostAsk.
