(** * CostFacts: the operations of Cost.v have the results of those of Node.v, and how many calls they make. *)
From Verif Require Import Base Bits Env EnvFacts Node NodeWf NodeAdd NodeRemove NodeBin NodeBin2 NodeUn Iter Tree TreeFacts
  SetApi SetFacts MapApi Clash Cost.
Local Open Scope nat_scope.

Section Counting.
Context {T : Type}.
Notation ask := (ask T).

(** The calls of the hash, and of the equality, in a list. *)
Definition isHash (q : ask) : bool := match q with AHash _ => true | AEq _ _ => false end.
Definition hashes (tr : list ask) : nat := length (filter isHash tr).
Definition compares (tr : list ask) : nat := length (filter (fun q => negb (isHash q)) tr).

Lemma hashes_app t1 t2 : hashes (t1 ++ t2) = hashes t1 + hashes t2.
Proof. unfold hashes. rewrite filter_app, app_length. reflexivity. Qed.
Lemma compares_app t1 t2 : compares (t1 ++ t2) = compares t1 + compares t2.
Proof. unfold compares. rewrite filter_app, app_length. reflexivity. Qed.

Definition atMost (h c : nat) (tr : list ask) : Prop := hashes tr <= h /\ compares tr <= c.

Lemma atMost_app h1 c1 h2 c2 h c t1 t2 : atMost h1 c1 t1 -> atMost h2 c2 t2 -> h1 + h2 <= h -> c1 + c2 <= c -> atMost h c (t1 ++ t2).
Proof. unfold atMost. rewrite hashes_app, compares_app. lia. Qed.
Lemma atMost_nil h c : atMost h c [].
Proof. split; simpl; unfold hashes, compares; simpl; lia. Qed.
Lemma atMost_le h1 c1 h c t : atMost h1 c1 t -> h1 <= h -> c1 <= c -> atMost h c t.
Proof. unfold atMost. lia. Qed.

(** [m] ends like [r], and its calls satisfy [P]. *)
Definition cost {A} (m : cres (T := T) A) (r : res A) (P : list ask -> Prop) : Prop :=
  match r with
  | Ok a => exists tr, m = Ok (a, tr) /\ P tr
  | Panic => m = Panic
  | Fuel => m = Fuel
  end.

Lemma cost_ret {A} (a : A) (P : list ask -> Prop) : P [] -> cost (cret a) (Ok a) P.
Proof. intros H. exists []. auto. Qed.
Lemma cost_lift {A} (m : res A) (P : list ask -> Prop) : P [] -> cost (clift m) m P.
Proof. intros H. destruct m; cbn; auto. exists []. auto. Qed.
Lemma cost_bind {A B} (m : cres A) r (k : A -> cres B) k' (P Q : list ask -> Prop) :
  cost m r P -> (forall a tr, r = Ok a -> P tr -> cost (k a) (k' a) (fun tr2 => Q (tr ++ tr2))) ->
  cost (cbind m k) (bind r k') Q.
Proof.
  intros Hm Hk. destruct r as [a| |]; cbn in Hm.
  - destruct Hm as (tr & -> & Hp). specialize (Hk a tr eq_refl Hp). unfold cbind; cbn [bind fst snd].
    destruct (k' a); cbn in *.
    + destruct Hk as (tr2 & -> & Hq). cbn. eauto.
    + rewrite Hk. reflexivity.
    + rewrite Hk. reflexivity.
  - subst m. reflexivity.
  - subst m. reflexivity.
Qed.
Lemma cost_weak {A} (m : cres A) r (P Q : list ask -> Prop) : cost m r P -> (forall tr, P tr -> Q tr) -> cost m r Q.
Proof. intros H HPQ. destruct r; cbn in *; auto. destruct H as (tr & E & Hp). eauto. Qed.
Lemma cost_res {A} (m : cres A) r r' (P : list ask -> Prop) : cost m r P -> r = r' -> cost m r' P.
Proof. intros H <-. exact H. Qed.
Lemma cost_map {A B} (f : A -> B) (m : cres A) r P : cost m r P -> cost (cmap f m) (rmap f r) P.
Proof.
  intros H. destruct r; cbn in *; [|subst m; reflexivity|subst m; reflexivity].
  destruct H as (tr & -> & Hp). cbn. eauto.
Qed.
Lemma cost_eq eq a b (P : list ask -> Prop) : P [AEq a b] -> cost (eqC eq a b) (Ok (eq a b)) P.
Proof. intros H. eexists. split; [reflexivity|auto]. Qed.
Lemma cost_le {A} (m : cres A) r h1 c1 h c : cost m r (atMost h1 c1) -> h1 <= h -> c1 <= c -> cost m r (atMost h c).
Proof. intros H H1 H2. eapply cost_weak; [exact H|]. intros tr Ht. eapply atMost_le; eauto. Qed.
Lemma cost_seq {A B} (m : cres A) r (k : A -> cres B) k' h1 c1 h2 c2 h c :
  cost m r (atMost h1 c1) -> (forall a, r = Ok a -> cost (k a) (k' a) (atMost h2 c2)) -> h1 + h2 <= h -> c1 + c2 <= c ->
  cost (cbind m k) (bind r k') (atMost h c).
Proof.
  intros Hm Hk H1 H2. eapply cost_bind; [exact Hm|]. intros a tr Er Ht. eapply cost_weak; [apply Hk; auto|].
  intros tr2 Ht2. eapply atMost_app; eauto.
Qed.

(** A comparison and what follows. *)
Lemma cost_ifeqP {A} eq a b (k : bool -> cres A) r (P : list ask -> Prop) :
  cost (k (eq a b)) r (fun tr => P (AEq a b :: tr)) -> cost (cbind (eqC eq a b) k) r P.
Proof.
  intros H. apply (cost_bind (eqC eq a b) (Ok (eq a b)) k (fun _ => r) (fun tr => tr = [AEq a b])).
  - apply cost_eq. reflexivity.
  - intros x tr [= <-] ->. exact H.
Qed.
Lemma cost_ifeq {A} eq a b (k : bool -> cres A) r h c : cost (k (eq a b)) r (atMost h c) -> cost (cbind (eqC eq a b) k) r (atMost h (S c)).
Proof.
  intros H. apply (cost_seq (eqC eq a b) (Ok (eq a b)) k (fun _ => r) 0 1 h c); [|intros x [= <-]; auto|lia|lia].
  apply cost_eq. split; cbn; auto.
Qed.
End Counting.

Global Arguments cost : simpl never.

Section CostFacts.
Context {E : Env} {HE : EnvOk E} {T : Type} {K : Key T} {vok : T -> Prop} {KO : KeyOk K vok}.
Notation node := (node T).
Notation ask := (ask T).
Notation wf := (wf vok).
Notation allok := (allok vok).
Notation D := maxTreeDepth.
Local Opaque maxTreeDepth fanout fb.

(** A hash and what follows. *)
Lemma cost_thenhash {A} (e : T) d (k : N -> cres A) r h c : cost (k (newHasher e d)) r (atMost h c) -> cost (cbind (hashC e d) k) r (atMost (S h) c).
Proof.
  intros H. apply (cost_seq (hashC e d) (Ok (newHasher e d)) k (fun _ => r) 1 0 h c); [|intros x [= <-]; auto|lia|lia].
  eexists. split; [reflexivity|]. split; cbn; auto.
Qed.

(** ** Get *)

(** The elements of [l] up to the first that satisfies [p]. *)
Fixpoint upto (p : T -> bool) (l : list T) : list T :=
  match l with [] => [] | e :: l' => e :: (if p e then [] else upto p l') end.

(** The elements compared with [v]. *)
Definition asks (v : T) (l : list T) : list ask := map (fun e => AEq e v) l.

Lemma upto_incl p l : incl (upto p l) l.
Proof. induction l as [|e l IH]; simpl; intros x; auto. intros [<-|H]; [left; auto|]. destruct (p e); [destruct H|right; auto]. Qed.
Lemma upto_nodup p l : NoDup l -> NoDup (upto p l).
Proof.
  induction 1 as [|e l H1 H2 IH]; simpl; constructor; destruct (p e); auto; [|constructor].
  intros H. apply H1. apply (upto_incl p); auto.
Qed.
Lemma upto_length p l : length (upto p l) <= length l.
Proof. induction l as [|e l IH]; simpl; auto. destruct (p e); simpl; lia. Qed.
Lemma upto_last p l l1 e l2 : upto p l = l1 ++ e :: l2 -> p e = true -> l2 = [].
Proof.
  revert l1. induction l as [|x l IH]; simpl; intros l1 H He; [destruct l1; discriminate|].
  destruct l1 as [|y l1]; simpl in H.
  - injection H as <- H. rewrite He in H. auto.
  - injection H as _ H. destruct (p x); [destruct l1; discriminate|]. eauto.
Qed.

Lemma findC_cost l v : cost (findC l v) (Ok (find (fun e => veq e v) l)) (fun tr => tr = asks v (upto (fun e => veq e v) l)).
Proof.
  induction l as [|e l IH]; cbn [findC find upto]; [apply cost_ret; auto|].
  apply cost_ifeqP. destruct (veq e v).
  - apply cost_ret. reflexivity.
  - eapply cost_weak; [exact IH|]. intros tr ->. reflexivity.
Qed.
(** Get compares its argument with elements of one leaf; if there are more than two, all share its hash. *)
Definition lookedAt (d : nat) (n : node) (v : T) (l : list T) : Prop :=
  NoDup l /\ incl l (elems n) /\ (length l <= 2 \/ forall e, In e l -> Clash.agree d D v e = true) /\
  (forall l1 e l2, l = l1 ++ e :: l2 -> veq e v = true -> l2 = []).

Lemma getC_cost fuel : forall d n v, wf d n -> vok v ->
  cost (getC fuel n v (newHasher v d)) (get fuel n v (newHasher v d)) (fun tr => exists l, tr = asks v l /\ lookedAt d n v l).
Proof.
  induction fuel as [|fuel IH]; intros d n v Hwf Hv; [reflexivity|].
  pose proof (wf_distinct _ _ Hwf) as Hdis0. pose proof (wf_allok _ _ Hwf) as Hok0.
  assert (Hl : forall l, l = elems n -> (length l <= 2 \/ d = D) ->
    lookedAt d n v (upto (fun e => veq e v) l)).
  { intros l -> Hb. split; [apply upto_nodup, (distinct_NoDup (vok := vok)); auto|]. split; [apply upto_incl|]. split.
    - destruct Hb as [Hb|Hb]; [left|right].
      + pose proof (upto_length (fun e => veq e v) (elems n)). lia.
      + intros e _. apply agree_nil. lia.
    - intros l1 e l2 H He. eapply (upto_last (fun e => veq e v)); eauto. }
  inversion Hwf as [d' a Hd Ha|d' a b Hd Ha Hb Hab|d' l Hd Hl1 Hok Hdis|d' mk data Hd Hlen Hm Hch Hp Hl1]; subst d' n; cbn [getC get].
  - eapply cost_weak; [|intros tr Htr; exists (upto (fun e => veq e v) [a]); split; [exact Htr|apply Hl; simpl; auto]].
    apply cost_ifeqP, cost_ret. cbn. destruct (veq a v); reflexivity.
  - eapply cost_weak; [|intros tr Htr; exists (upto (fun e => veq e v) [a; b]); split; [exact Htr|apply Hl; simpl; auto]].
    apply cost_ifeqP. cbn [upto]. destruct (veq a v); [apply cost_ret; reflexivity|].
    apply cost_ifeqP, cost_ret. cbn. destruct (veq b v); reflexivity.
  - eapply cost_weak; [apply findC_cost|]. intros tr ->. eexists. split; [reflexivity|]. apply Hl; auto.
  - fold (digit d v). destruct (child data (digit d v)) as [c|] eqn:Ec.
    + rewrite <- newHasher_S. eapply cost_weak; [apply IH; eauto|]. intros tr (l & -> & H1 & H2 & H3 & H4).
      assert (Hin : forall e, In e (elems c) -> In e (flat_map elemso data) /\ digit d e = digit d v).
      { intros e He. assert (In e (elemso (child data (digit d v)))) by (rewrite Ec; auto).
        split; [apply in_flat_map_child; eauto|apply Hp; auto]. }
      exists l. split; auto. split; auto. split; [|split; auto].
      * intros e He. rewrite elems_branch. apply Hin; auto.
      * destruct H3 as [H3|H3]; auto. right. intros e He. rewrite agree_step, H3 by auto.
        destruct (Hin e (H2 e He)) as [_ ->]. rewrite Nat.eqb_refl. reflexivity.
    + apply cost_ret. exists []. split; auto. split; [constructor|]. split; [intros e []|]. split; [left; simpl; lia|].
      intros l1 e l2 H. destruct l1; discriminate.
Qed.

Lemma lookedAt_few d n v l : wf d n -> lookedAt d n v l -> length l <= max 2 (cnt (Clash.agree d D v) (elems n)).
Proof.
  intros Hwf (H1 & H2 & [H3|H3] & _); [lia|]. unfold cnt.
  assert (length l <= length (filter (Clash.agree d D v) (elems n))); [|lia].
  apply NoDup_incl_length; auto. intros e He. apply filter_In. auto.
Qed.

Lemma asks_count v l : hashes (asks v l) = 0 /\ compares (asks v l) = length l.
Proof. unfold hashes, compares, asks. induction l as [|e l [IH1 IH2]]; simpl; auto. Qed.

Definition near (d : nat) (v : T) (n : node) : nat := cnt (Clash.agree d D v) (elems n).

Lemma getC_atMost fuel d n v : wf d n -> vok v ->
  cost (getC fuel n v (newHasher v d)) (get fuel n v (newHasher v d)) (atMost 0 (max 2 (near d v n))).
Proof.
  intros Hwf Hv. eapply cost_weak; [apply getC_cost; auto|]. intros tr (l & -> & Hl).
  pose proof (lookedAt_few d n v l Hwf Hl). unfold atMost, near.
  destruct (asks_count v l) as [-> ->]. lia.
Qed.

(** ** Insertion *)

Lemma near_child d v m data c : wf d (Branch m data) -> child data (digit d v) = Some c -> near (S d) v c = near d v (Branch m data).
Proof.
  intros Hwf Hc. inversion Hwf as [| | |d' m' data' Hd Hlen1 Hm1 Hch1 Hp1 Hl1]; subst d' m' data'.
  unfold near. rewrite elems_branch, cnt_branch, Hc by auto. reflexivity.
Qed.
Lemma near_child_pre d v m data c : pre vok d (Branch m data) -> child data (digit d v) = Some c -> near (S d) v c = near d v (Branch m data).
Proof.
  intros Hwf Hc. inversion Hwf as [d' m' data' Hd Hlen1 Hm1 Hch1 Hp1]; subst d' m' data'.
  unfold near. rewrite elems_branch, cnt_branch, Hc by auto. reflexivity.
Qed.
Lemma near_length d v n : near d v n <= length (elems n).
Proof. unfold near, cnt. induction (elems n) as [|e l IH]; simpl; auto. destruct (Clash.agree d D v e); simpl; lia. Qed.
Lemma near_twig v l : near D v (Twig l) = length l.
Proof. unfold near, cnt. cbn [elems]. rewrite filter_true; auto. intros e _. apply agree_nil. auto. Qed.

Lemma flat_map_child_length (data : list (option node)) i : length (elemso (child data i)) <= length (flat_map elemso data).
Proof.
  unfold child. revert i. induction data as [|o data IH]; intros i; [destruct i; simpl; lia|].
  simpl. rewrite app_length. destruct i as [|i]; [lia|]. specialize (IH i). lia.
Qed.

(** What inserting into a node of [s] elements, [k] of them with the hash of the new one, costs at depth [d]. *)
Definition insH (d s : nat) : nat := if s <=? 1 then 0 else 3 * (D - d).
Definition insC (d s k : nat) : nat := if s <=? 1 then s else max (2 + 3 * (D - d)) k.

Lemma insH_mono d d' s s' : d <= d' -> s' <= s -> insH d' s' <= insH d s.
Proof. intros. unfold insH. destruct (Nat.leb_spec s' 1), (Nat.leb_spec s 1); lia. Qed.
Lemma insC_mono d d' s s' k : d <= d' -> s' <= s -> insC d' s' k <= insC d s k.
Proof. intros. unfold insC. destruct (Nat.leb_spec s' 1), (Nat.leb_spec s 1); lia. Qed.

Definition addCostN (d fuel : nat) : Prop := forall n v, wf d n -> vok v ->
  cost (addFastC fuel n v d (newHasher v d)) (addFast fuel n v d (newHasher v d)) (atMost (insH d (length (elems n))) (insC d (length (elems n)) (near d v n))).
Definition addCostB (d fuel : nat) : Prop := forall n v, pre vok d n -> vok v ->
  cost (addFastC fuel n v d (newHasher v d)) (addFast fuel n v d (newHasher v d)) (atMost (insH (S d) (length (elems n))) (insC (S d) (length (elems n)) (near d v n))).

Lemma addCost_branch d fuel : addCostN (S d) fuel -> addCostB d (S fuel).
Proof.
  intros HN n v Hpre Hv. inversion Hpre as [d' mk data Hd Hlen Hm Hch Hp]; subst d' n. cbn [addFastC addFast]. fold (digit d v).
  destruct (child data (digit d v)) as [c|] eqn:Ec; [|apply cost_ret, atMost_nil].
  rewrite <- newHasher_S. eapply cost_seq.
  - apply HN; eauto.
  - intros [r m] _. apply (cost_ret (A := node * Z)), (atMost_nil 0 0).
  - rewrite Nat.add_0_r, elems_branch. apply insH_mono; auto. pose proof (flat_map_child_length data (digit d v)). rewrite Ec in H. exact H.
  - rewrite Nat.add_0_r, (near_child_pre d v mk data c Hpre Ec), elems_branch. apply insC_mono; auto.
    pose proof (flat_map_child_length data (digit d v)). rewrite Ec in H. exact H.
Qed.

(** The elements added one by one to a branch of [s] elements. *)
Fixpoint foldH (d s j : nat) : nat := match j with O => O | S j' => 1 + insH (S d) s + foldH d (S s) j' end.
Fixpoint foldC (d s j : nat) : nat := match j with O => O | S j' => insC (S d) s s + foldC d (S s) j' end.

Lemma insC_near d s k : k <= s -> insC d s k <= insC d s s.
Proof. intros. unfold insC. destruct (s <=? 1); lia. Qed.

Lemma fold_cost d fuel data : forall b, addB (vok := vok) d fuel -> addCostB d fuel -> pre vok d b -> distinct (elems b ++ data) -> allok data ->
  cost (cfold (fun b e => h <c hashC e d ;; '(b', _) <c addFastC fuel b e d h ;; cret b') b data)
    (foldM (fun b e => '(b', _) <- addFast fuel b e d (newHasher e d) ;; Ok b') b data)
    (atMost (foldH d (length (elems b)) (length data)) (foldC d (length (elems b)) (length data))).
Proof.
  induction data as [|v data IH]; intros b HB HC Hb Hd Hok; cbn [cfold foldM]; [apply cost_ret, atMost_nil|].
  assert (Hv : vok v) by (eapply allok_hd; eauto).
  assert (Hokb : allok (elems b)) by (eapply pre_allok; eauto).
  assert (Hok' : allok data) by (eapply allok_tl; eauto).
  destruct (HB b v) as (b' & m & E1 & Hb' & H1 & H2 & H3); auto.
  assert (Hn : lookup (elems b) v = None).
  { apply lookup_None. intros e He. apply distinct_app in Hd as (_ & _ & Hd). apply Hd; auto. left; auto. }
  assert (m = 0%Z) by (rewrite H3; unfold hit; rewrite Hn; auto). subst m.
  assert (Hlk : forall w, vok w -> lookup (elems b') w = lookup (elems b ++ [v]) w).
  { intros w Hw. rewrite H1 by auto. symmetry. apply (snoc_upd (vok := vok)); auto. }
  assert (Hd' : distinct (elems b' ++ data)).
  { apply distinct_app. apply distinct_app in Hd as (Hd1 & Hd2 & Hd3).
    inversion Hd2 as [|? ? Hd4 Hd5]; subst. split; [eapply pre_distinct; eauto|]. split; auto.
    intros a x Ha Hx. assert (Hoka : vok a) by (eapply pre_allok; eauto).
    assert (Hla : lookup (elems b') a = Some a).
    { apply (lookup_In (vok := vok)); auto. eapply pre_distinct; eauto. eapply pre_allok; eauto. }
    rewrite Hlk in Hla by auto. apply lookup_Some in Hla as [Hin _].
    apply in_app_or in Hin as [Hin|[<-|[]]]; auto. apply Hd3; auto. right; auto. }
  eapply cost_seq with (h1 := 1 + insH (S d) (length (elems b))) (c1 := insC (S d) (length (elems b)) (length (elems b)))
    (h2 := foldH d (S (length (elems b))) (length data)) (c2 := foldC d (S (length (elems b))) (length data)).
  - apply (cost_thenhash v d). eapply cost_seq; [apply HC; auto| |rewrite Nat.add_0_r; auto|].
    + intros [x y] _. apply cost_ret, (atMost_nil 0 0).
    + rewrite Nat.add_0_r. apply insC_near, near_length.
  - rewrite E1. cbn [bind]. intros a [= <-].
    replace (S (length (elems b))) with (length (elems b')) by lia. apply IH; auto.
  - cbn [foldH length]. lia.
  - cbn [foldC length]. lia.
Qed.

Lemma newBranchFromC_cost d fuel data : (d < D -> addB (vok := vok) d fuel) -> (d < D -> addCostB d fuel) -> distinct data -> allok data ->
  cost (newBranchFromC fuel d data) (newBranchFrom fuel d data) (fun tr => if D <=? d then atMost 0 0 tr else atMost (foldH d 0 (length data)) (foldC d 0 (length data)) tr).
Proof.
  intros HB HC Hd Hok. unfold newBranchFromC, newBranchFromC_with, newBranchFrom, newBranchFrom_with.
  destruct (Nat.leb_spec D d) as [Hm|Hm]; [apply cost_ret, atMost_nil|].
  pose proof (fold_cost d fuel data (newBranch emptyPacker)) as H. rewrite elems_empty in H. apply H; auto. apply pre_empty; auto.
Qed.

Lemma newBranchFrom3_cost d fuel a b c : (d < D -> addB (vok := vok) d fuel) -> (d < D -> addCostB d fuel) -> distinct [a; b; c] -> allok [a; b; c] ->
  cost (newBranchFromC fuel d [a; b; c]) (newBranchFrom fuel d [a; b; c]) (atMost (3 * (D - d)) (3 * (D - d))).
Proof.
  intros HB HC Hd Hok. eapply cost_weak; [apply newBranchFromC_cost; auto|]. intros tr.
  destruct (Nat.leb_spec D d); intros Ht; [eapply atMost_le; eauto; lia|].
  eapply atMost_le; [exact Ht|..]; simpl; unfold insH, insC; simpl; lia.
Qed.
Lemma newBranchFrom4_cost d fuel a b c e : (d < D -> addB (vok := vok) d fuel) -> (d < D -> addCostB d fuel) -> distinct [a; b; c; e] -> allok [a; b; c; e] ->
  cost (newBranchFromC fuel d [a; b; c; e]) (newBranchFrom fuel d [a; b; c; e]) (atMost (6 * (D - d)) (6 * (D - d))).
Proof.
  intros HB HC Hd Hok. eapply cost_weak; [apply newBranchFromC_cost; auto|]. intros tr.
  destruct (Nat.leb_spec D d); intros Ht; [eapply atMost_le; eauto; lia|].
  eapply atMost_le; [exact Ht|..]; simpl; unfold insH, insC; simpl; lia.
Qed.

Lemma replaceFirstC_cost eq f (l : list T) v :
  cost (replaceFirstC eq f l v) (Ok (replaceFirst (fun e => eq e v) (fun e => f e v) l)) (atMost 0 (length l)).
Proof.
  induction l as [|e l IH]; cbn [replaceFirstC replaceFirst length]; [apply cost_ret, atMost_nil|].
  apply cost_ifeq. destruct (eq e v); [apply cost_ret, atMost_nil|].
  eapply cost_res; [eapply (cost_seq _ _ _ (fun o => Ok (option_map (cons e) o)) 0 (length l) 0 0); [exact IH| |lia|lia]|].
  - intros a _. apply cost_ret, atMost_nil.
  - cbn [bind]. destruct (replaceFirst _ _ l); reflexivity.
Qed.


Lemma addFastC_nonbranch d fuel : d <= D -> addB (vok := vok) d fuel \/ d = D -> addCostB d fuel \/ d = D -> forall n v, wf d n -> vok v ->
  match n with Branch _ _ => False | _ => True end ->
  cost (addFastC (S fuel) n v d (newHasher v d)) (addFast (S fuel) n v d (newHasher v d)) (atMost (insH d (length (elems n))) (insC d (length (elems n)) (near d v n))).
Proof.
  intros HdD HB HC n v Hwf Hv Hn.
  inversion Hwf as [d' a Hd Ha|d' a b Hd Ha Hb Hab|d' l Hd Hl Hok Hdis|d' mk data Hd]; subst d' n; try contradiction; cbn [addFastC addFast].
  - apply (cost_ifeq veq a v _ _ 0 0). destruct (veq a v); apply cost_ret, atMost_nil.
  - eapply (cost_le _ _ (3 * (D - d)) (2 + 3 * (D - d))); [|unfold insH; cbn [elems length Nat.leb]; lia|unfold insC; cbn [elems length Nat.leb]; lia].
    change (2 + 3 * (D - d)) with (S (S (3 * (D - d)))).
    apply cost_ifeq. destruct (veq a v) eqn:E1; [apply cost_ret, atMost_nil|].
    apply cost_ifeq. destruct (veq b v) eqn:E2; [apply cost_ret, atMost_nil|].
    eapply cost_seq; [apply newBranchFrom3_cost| |rewrite Nat.add_0_r; auto|rewrite Nat.add_0_r; auto].
    + intros Hlt. destruct HB; [auto|lia].
    + intros Hlt. destruct HC; [auto|lia].
    + apply distinct3; auto.
    + intros e [<-|[<-|[<-|[]]]]; auto.
    + intros r _. apply cost_ret, (atMost_nil 0 0).
  - eapply cost_res; [eapply cost_seq with (k' := fun o => match o with Some l' => Ok (Twig l', 1%Z) | None => Ok (Twig (l ++ [v]), 0%Z) end);
      [apply replaceFirstC_cost| |rewrite Nat.add_0_r; apply Nat.le_0_l|rewrite Nat.add_0_r]|].
    + intros o _. destruct o as [l'|]; [apply cost_ret, (atMost_nil 0 0)|].
      destruct (Nat.leb_spec D d); [|lia]. apply cost_ret, (atMost_nil 0 0).
    + subst d. rewrite near_twig. cbn [elems]. unfold insC. destruct (Nat.leb_spec (length l) 1); lia.
    + cbn [bind]. destruct (replaceFirst _ _ l); auto. destruct (Nat.leb_spec D d); [auto|lia].
Qed.

Lemma addFastC_spec j : forall d fuel, d + j = D ->
  (2 * j <= fuel -> addCostB d fuel) /\ (2 * j + 1 <= fuel -> addCostN d fuel).
Proof.
  induction j as [|j IH]; intros d fuel Hj.
  - split; [intros Hf n v Hpre; inversion Hpre; lia|]. intros Hf n v Hwf Hv. destruct fuel as [|fuel]; [lia|].
    apply addFastC_nonbranch; auto; try lia. inversion Hwf; auto; lia.
  - destruct (IH (S d) (pred fuel)) as [_ IHN]; [lia|].
    destruct (IH (S d) (pred (pred fuel))) as [_ IHN2]; [lia|].
    assert (HB : 2 * S j <= fuel -> addCostB d fuel).
    { intros Hf. destruct fuel as [|fuel]; [lia|]. apply addCost_branch, IHN. simpl. lia. }
    split; auto. intros Hf n v Hwf Hv. destruct fuel as [|[|fuel]]; [lia|lia|].
    destruct n as [a|a b|l|mk data].
    1-3: apply addFastC_nonbranch; auto; [lia|left; apply (addFast_spec (S j) d (S fuel)); lia|left; apply addCost_branch, IHN2; simpl; lia].
    eapply cost_le; [apply HB; auto; [lia|apply wf_pre; auto]|apply insH_mono; auto|apply insC_mono; auto].
Qed.

Lemma addFastC_cost d fuel n v : fuelAt d <= fuel -> wf d n -> vok v ->
  cost (addFastC fuel n v d (newHasher v d)) (addFast fuel n v d (newHasher v d)) (atMost (3 * (D - d)) (max (2 + 3 * (D - d)) (near d v n))).
Proof.
  intros Hf Hwf Hv. pose proof (wf_depth _ _ Hwf). unfold fuelAt in Hf.
  eapply cost_le; [apply (addFastC_spec (D - d) d fuel); auto; lia|unfold insH|unfold insC];
  destruct (Nat.leb_spec (length (elems n)) 1); lia.
Qed.

Lemma addCostB_fuel d fuel : d < D -> 2 * (D - d) <= fuel -> addCostB d fuel.
Proof. intros Hd Hf. apply (addFastC_spec (D - d) d fuel); lia. Qed.
Lemma addB_fuel d fuel : d < D -> 2 * (D - d) <= fuel -> addB (vok := vok) d fuel.
Proof. intros Hd Hf. apply (addFast_spec (D - d) d fuel); lia. Qed.

(** ** With *)

Lemma canonicalTwigC_max fuel d l : D <= d -> cost (canonicalTwigC fuel d l) (canonicalTwig fuel d l) (atMost 0 0).
Proof.
  intros Hd. unfold canonicalTwigC, canonicalTwig.
  destruct l as [|a [|b [|c l]]]; try (apply cost_ret, atMost_nil).
  assert (64 <= d * fb) by (pose proof maxTreeDepth_bits; pose proof fb_pos; nia).
  destruct (Nat.leb_spec 64 (d * fb)); [|lia]. rewrite orb_true_r. apply cost_ret, atMost_nil.
Qed.
Lemma canonicalC_branch fuel d m data : cost (canonicalC fuel d (Branch m data)) (canonical fuel d (Branch m data)) (atMost 0 0).
Proof.
  unfold canonicalC, canonical. rewrite appendTo_spec by (simpl; lia). unfold maxLeafLen.
  destruct (Nat.ltb_spec 2 (length (@nil T) + length (elems (Branch m data)))) as [Hl|Hl]; [apply cost_ret, atMost_nil|].
  cbn [app length] in *. destruct (elems (Branch m data)) as [|a [|b [|c l]]]; cbn [length] in *; try lia; apply cost_ret, atMost_nil.
Qed.

Lemma withC_cost fuel : forall d args n v, fuelAt d <= fuel -> c_eq args = veq -> wf d n -> vok v ->
  cost (withC fuel (c_eq args) (c_f args) n v d (newHasher v d)) (with_ fuel args n v d (newHasher v d)) (atMost (3 * (D - d)) (max (2 + 3 * (D - d)) (near d v n))).
Proof.
  induction fuel as [|fuel IH]; intros d args n v Hf Heq Hwf Hv; [reflexivity|].
  pose proof (wf_depth _ _ Hwf) as HdD. unfold fuelAt in Hf.
  inversion Hwf as [d' a Hd Ha|d' a b Hd Ha Hb Hab|d' l Hd Hl Hok Hdis|d' mk data Hd Hlen Hm Hch Hp Hl]; subst d' n; cbn [withC with_].
  - eapply (cost_le _ _ 0 1); [|lia|lia]. apply (cost_ifeq (c_eq args) a v _ _ 0 0). destruct (c_eq args a v); apply cost_ret, atMost_nil.
  - eapply (cost_le _ _ (3 * (D - d)) (2 + 3 * (D - d))); [|lia|lia].
    change (2 + 3 * (D - d)) with (S (S (3 * (D - d)))). rewrite Heq.
    apply cost_ifeq. destruct (veq a v) eqn:E1; [apply cost_ret, atMost_nil|].
    apply cost_ifeq. destruct (veq b v) eqn:E2; [apply cost_ret, atMost_nil|].
    eapply cost_seq; [apply newBranchFrom3_cost| |rewrite Nat.add_0_r; auto|rewrite Nat.add_0_r; auto].
    + intros Hlt. apply addB_fuel; lia.
    + intros Hlt. apply addCostB_fuel; lia.
    + apply distinct3; auto.
    + intros e [<-|[<-|[<-|[]]]]; auto.
    + intros r _. apply cost_ret, (atMost_nil 0 0).
  - eapply cost_res; [eapply cost_seq with (k' := fun o => match o with Some l' => Ok (Twig l', 1%Z)
        | None => o <- canonicalTwig fuel d (l ++ [v]) ;; match o with Some n' => Ok (n', 0%Z) | None => Panic end end);
      [apply replaceFirstC_cost| |rewrite Nat.add_0_r; apply Nat.le_0_l|rewrite Nat.add_0_r]|].
    + intros o _. destruct o as [l'|]; [apply cost_ret, (atMost_nil 0 0)|].
      eapply (cost_seq _ _ _ _ 0 0 0 0); [apply canonicalTwigC_max; lia| |lia|lia].
      intros [n'|] _; [apply cost_ret, atMost_nil|reflexivity].
    + subst d. rewrite near_twig. lia.
    + cbn [bind]. destruct (replaceFirst _ _ l); auto.
  - fold (digit d v). destruct (child data (digit d v)) as [c|] eqn:Ec; [|apply cost_ret, atMost_nil].
    rewrite <- newHasher_S. eapply cost_seq; [apply IH; eauto; unfold fuelAt; lia| |rewrite Nat.add_0_r; lia|rewrite Nat.add_0_r].
    + intros [r m] _. apply (cost_ret (A := node * Z)), (atMost_nil 0 0).
    + rewrite (near_child d v mk data c) by auto. lia.
Qed.

Lemma withFastC_cost fuel d n v : fuelAt d <= fuel -> wf d n -> vok v ->
  cost (withC fuel veq (fun _ v => v) n v d (newHasher v d)) (withFast fuel n v d (newHasher v d)) (atMost (3 * (D - d)) (max (2 + 3 * (D - d)) (near d v n))).
Proof.
  intros Hf Hwf Hv. rewrite (withFast_with NonParallel). apply (withC_cost fuel d (mkCombineArgs NonParallel veq (fun _ v => v))); auto.
Qed.

(** ** Without and Remove *)

Lemma findIndexC_cost l v : cost (findIndexC l v) (Ok (findIndex (fun e => veq e v) l)) (atMost 0 (length l)).
Proof.
  induction l as [|e l IH]; cbn [findIndexC findIndex length]; [apply cost_ret, atMost_nil|].
  apply cost_ifeq. destruct (veq e v); [apply cost_ret, atMost_nil|].
  eapply (cost_seq _ (Ok (findIndex (fun e => veq e v) l)) _ (fun o => Ok (option_map S o)) 0 (length l) 0 0); [exact IH| |lia|lia].
  intros a _. apply cost_ret, atMost_nil.
Qed.

Lemma withoutC_cost fuel : forall d n v, wf d n -> vok v ->
  cost (withoutC fuel n v d (newHasher v d)) (without fuel n v d (newHasher v d)) (atMost 0 (max 2 (near d v n))).
Proof.
  induction fuel as [|fuel IH]; intros d n v Hwf Hv; [reflexivity|].
  inversion Hwf as [d' a Hd Ha|d' a b Hd Ha Hb Hab|d' l Hd Hl Hok Hdis|d' mk data Hd Hlen Hm Hch Hp Hl]; subst d' n; cbn [withoutC without].
  - eapply (cost_le _ _ 0 1); [|lia|lia]. apply cost_ifeq. destruct (veq a v); apply cost_ret, atMost_nil.
  - eapply (cost_le _ _ 0 2); [|lia|lia]. apply cost_ifeq. destruct (veq a v); [apply cost_ret, atMost_nil|].
    apply cost_ifeq. destruct (veq b v); apply cost_ret, atMost_nil.
  - eapply (cost_seq _ (Ok (findIndex (fun e => veq e v) l)) _ (fun o => match o with
        | Some i => o <- canonicalTwig fuel d (swapRemove l i v) ;; Ok (o, 1%Z) | None => Ok (Some (Twig l), 0%Z) end) 0 (length l) 0 0);
      [apply findIndexC_cost| |lia|subst d; rewrite near_twig; lia].
    intros [i|] _; [|apply cost_ret, atMost_nil].
    eapply (cost_seq _ _ _ _ 0 0 0 0); [apply canonicalTwigC_max; lia| |lia|lia]. intros o _. apply cost_ret, atMost_nil.
  - fold (digit d v). destruct (child data (digit d v)) as [c|] eqn:Ec; [|apply cost_ret, atMost_nil].
    rewrite <- newHasher_S. eapply (cost_seq _ _ _ _ 0 (max 2 (near (S d) v c)) 0 0); [apply IH; eauto| |lia|rewrite Nat.add_0_r, (near_child d v mk data c) by auto; auto].
    intros [o m] _. destruct (m =? 0)%Z; [apply (cost_ret (A := option node * Z)), (atMost_nil 0 0)|].
    eapply (cost_seq _ _ _ _ 0 0 0 0); [apply canonicalC_branch| |lia|lia]. intros o' _. apply cost_ret, atMost_nil.
Qed.

Lemma removeC_cost fuel : forall d n v, wf d n -> vok v ->
  cost (removeC fuel n v d (newHasher v d)) (remove_ fuel n v d (newHasher v d)) (atMost 0 (max 2 (near d v n))).
Proof.
  induction fuel as [|fuel IH]; intros d n v Hwf Hv; [reflexivity|].
  inversion Hwf as [d' a Hd Ha|d' a b Hd Ha Hb Hab|d' l Hd Hl Hok Hdis|d' mk data Hd Hlen Hm Hch Hp Hl]; subst d' n; cbn [removeC remove_].
  - eapply (cost_le _ _ 0 1); [|lia|lia]. apply cost_ifeq. destruct (veq a v); apply cost_ret, atMost_nil.
  - eapply (cost_le _ _ 0 2); [|lia|lia]. apply cost_ifeq. destruct (veq a v); [apply cost_ret, atMost_nil|].
    apply cost_ifeq. destruct (veq b v); apply cost_ret, atMost_nil.
  - eapply (cost_seq _ (Ok (findIndex (fun e => veq e v) l)) _ (fun o => match o with
        | Some i => if (length l - 1 =? 0)%nat then Ok (None, 1%Z) else o <- canonicalTwig fuel d (swapRemove l i v) ;; Ok (o, 1%Z)
        | None => Ok (Some (Twig l), 0%Z) end) 0 (length l) 0 0);
      [apply findIndexC_cost| |lia|subst d; rewrite near_twig; lia].
    intros [i|] _; [|apply cost_ret, atMost_nil]. destruct (length l - 1 =? 0); [apply cost_ret, atMost_nil|].
    eapply (cost_seq _ _ _ _ 0 0 0 0); [apply canonicalTwigC_max; lia| |lia|lia]. intros o _. apply cost_ret, atMost_nil.
  - fold (digit d v). destruct (child data (digit d v)) as [c|] eqn:Ec; [|apply cost_ret, atMost_nil].
    rewrite <- newHasher_S. eapply (cost_seq _ _ _ _ 0 (max 2 (near (S d) v c)) 0 0); [apply IH; eauto| |lia|rewrite Nat.add_0_r, (near_child d v mk data c) by auto; auto].
    intros [o m] _. cbv zeta.
    assert (Hk : cost (T := T) (A := option node * Z) (match appendTo maxLeafLen (Branch mk (set_nth data (digit d v) o)) [] with
        | Some es => l <c clift (newLeaf es) ;; cret (Some l, m)
        | None => cret (Some (Branch (updateMask (set_nth data (digit d v) o)) (set_nth data (digit d v) o)), m) end)
      (match appendTo maxLeafLen (Branch mk (set_nth data (digit d v) o)) [] with
        | Some es => l <- newLeaf es ;; Ok (Some l, m)
        | None => Ok (Some (Branch (updateMask (set_nth data (digit d v) o)) (set_nth data (digit d v) o)), m) end) (atMost 0 0)).
    { destruct (appendTo _ _ _) as [es|]; [|apply (cost_ret (A := option node * Z)), atMost_nil].
      eapply (cost_seq _ _ _ _ 0 0 0 0); [apply cost_lift, atMost_nil| |lia|lia]. intros l _. apply (cost_ret (A := option node * Z)), atMost_nil. }
    destruct o as [[x|x y|l|m' d']|]; auto. apply (cost_ret (A := option node * Z)), (atMost_nil 0 0).
Qed.

End CostFacts.
