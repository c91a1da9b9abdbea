(** * CostBin: the calls that the operations on two tries make. *)
From Coq Require Import Sorting.Permutation.
From Verif Require Import Base Bits Env EnvFacts Node NodeWf NodeAdd NodeRemove NodeBin NodeBin2 NodeUn Iter Tree TreeFacts
  SetApi SetFacts MapApi Clash Cost CostFacts.
Local Open Scope nat_scope.

(** ** Sums *)

Lemma list_sum_app' l1 l2 : list_sum (l1 ++ l2) = list_sum l1 + list_sum l2.
Proof. induction l1 as [|a l1 IH]; cbn in *; auto. fold (list_sum (l1 ++ l2)). fold (list_sum l1). lia. Qed.

Lemma sum_incl (f : nat -> nat) l : forall b, NoDup l -> incl l b -> list_sum (map f l) <= list_sum (map f b).
Proof.
  induction l as [|a l IH]; intros b Hn Hi; [cbn; lia|]. inversion Hn as [|? ? H1 H2]; subst.
  assert (Ha : In a b) by (apply Hi; left; auto). apply in_split in Ha as (b1 & b2 & ->).
  assert (H : list_sum (map f l) <= list_sum (map f (b1 ++ b2))).
  { apply IH; auto. intros x Hx. assert (Hb : In x (b1 ++ a :: b2)) by (apply Hi; right; auto).
    apply in_app_or in Hb as [Hb|[<-|Hb]]; apply in_or_app; auto. contradiction. }
  rewrite map_app, list_sum_app' in *. cbn [map list_sum fold_right] in *. fold (list_sum (map f l)) in *. fold (list_sum (map f b2)). lia.
Qed.

Lemma sum_le (f g : nat -> nat) l : (forall i, f i <= g i) -> list_sum (map f l) <= list_sum (map g l).
Proof. intros H. induction l as [|a l IH]; cbn; auto. fold (list_sum (map f l)). fold (list_sum (map g l)). specialize (H a). lia. Qed.
Lemma sum_mul k (f : nat -> nat) l : list_sum (map (fun i => k * f i) l) = k * list_sum (map f l).
Proof. induction l as [|a l IH]; cbn; [lia|]. fold (list_sum (map f l)). fold (list_sum (map (fun i => k * f i) l)). rewrite IH. lia. Qed.

Section CostBin.
Context {E : Env} {HE : EnvOk E} {T : Type} {K : Key T} {vok : T -> Prop} {KO : KeyOk K vok}.
Notation node := (node T).
Notation ask := (ask T).
Notation wf := (wf vok).
Notation allok := (allok vok).
Notation D := maxTreeDepth.
Local Opaque maxTreeDepth fanout fb.

(** The number of elements. *)
Definition size (n : node) : nat := length (elems n).
Definition sizeo (o : option node) : nat := length (elemso o).

Lemma sum_children (data : list (option node)) k : list_sum (map (fun i => sizeo (child data i)) (seq 0 (length data + k))) = length (flat_map elemso data).
Proof.
  assert (H : forall k j, list_sum (map (fun i => sizeo (nth i (@nil (option node)) None)) (seq j k)) = 0).
  { induction k0 as [|k0 IH]; intros j; cbn; auto. fold (list_sum (map (fun i => sizeo (nth i (@nil (option node)) None)) (seq (S j) k0))).
    rewrite IH. destruct j; reflexivity. }
  unfold child. revert k. induction data as [|o data IH]; intros k; [apply H|].
  cbn [length Nat.add seq map flat_map]. rewrite app_length, <- (IH k), <- seq_shift, map_map. reflexivity.
Qed.

Lemma sum_order (data : list (option node)) l : NoDup l -> list_sum (map (fun i => sizeo (child data i)) l) <= length (flat_map elemso data).
Proof.
  intros Hn. rewrite <- (sum_children data (S (list_max l))). apply sum_incl; auto. intros x Hx. apply in_seq.
  assert (Hm : list_max l <= list_max l) by auto. apply list_max_le in Hm. rewrite Forall_forall in Hm. specialize (Hm x Hx). lia.
Qed.

Lemma cpar_cost {P} (fC : nat -> P -> cres (bool * Z * P)) f (wH wC : nat -> nat) order :
  (forall i x, In i order -> cost (fC i x) (f i x) (atMost (T := T) (wH i) (wC i))) -> forall m x,
  cost (cpar_loop fC order m x) (par_loop f order m x) (atMost (list_sum (map wH order)) (list_sum (map wC order))).
Proof.
  intros Hf. induction order as [|i order IH]; intros m x; cbn [cpar_loop par_loop]; [apply cost_ret, atMost_nil|].
  eapply cost_seq; [apply Hf; left; auto| |apply Nat.le_refl|apply Nat.le_refl].
  intros [[ok m'] x'] _. destruct ok; [apply IH; intros; apply Hf; right; auto|]. apply cost_ret, atMost_nil.
Qed.

(** Every twig has at most [B] elements. *)
Inductive twigsLe (B : nat) : node -> Prop :=
| tl_leaf1 a : twigsLe B (Leaf1 a)
| tl_leaf2 a b : twigsLe B (Leaf2 a b)
| tl_twig l : length l <= B -> twigsLe B (Twig l)
| tl_branch m data : (forall i c, child data i = Some c -> twigsLe B c) -> twigsLe B (Branch m data).

Lemma near_twigs B v n : 2 <= B -> twigsLe B n -> forall d, wf d n -> near d v n <= B.
Proof.
  intros HB Ht. induction Ht as [a|a b|l Hl|m data Hc IH]; intros d Hwf.
  - pose proof (near_length d v (Leaf1 a)). cbn [elems length] in *. lia.
  - pose proof (near_length d v (Leaf2 a b)). cbn [elems length] in *. lia.
  - pose proof (near_length d v (Twig l)). cbn [elems length] in *. lia.
  - inversion Hwf as [| | |d' m' data' Hd Hlen1 Hm1 Hch1 Hp1 Hl1]; subst d' m' data'.
    destruct (child data (digit d v)) as [c|] eqn:Ec.
    + rewrite <- (near_child (vok := vok) d v m data c) by auto. eauto.
    + unfold near. rewrite elems_branch, cnt_branch, Ec by auto. cbn. lia.
Qed.

Section Bound.
Context (B : nat) (HB : 2 <= B).

Lemma has_atC_cost fuel d n v : wf d n -> twigsLe B n -> vok v -> cost (has_atC fuel n v d) (has_at fuel n v d) (atMost 1 B).
Proof.
  intros Hwf Ht Hv. unfold has_atC, has_at. apply cost_thenhash. apply cost_map.
  eapply cost_le; [apply (getC_atMost (vok := vok)); auto|lia|]. pose proof (near_twigs B v n HB Ht d Hwf). lia.
Qed.

Lemma filterGetC_cost fuel keep d n l : wf d n -> twigsLe B n -> allok l ->
  cost (filterGetC fuel keep l n d) (filterGet fuel keep l n d) (atMost (length l) (B * length l)).
Proof.
  intros Hwf Ht. induction l as [|e l IH]; intros Hok; cbn [filterGetC filterGet length]; [apply cost_ret, atMost_nil|].
  eapply (cost_seq _ _ _ _ 1 B (length l) (B * length l)); [apply has_atC_cost; auto; apply Hok; left; auto| |lia|lia].
  intros b _. eapply (cost_seq _ _ _ _ (length l) (B * length l) 0 0); [apply IH; intros x Hx; apply Hok; right; auto| |lia|lia].
  intros [r m] _. apply cost_ret, atMost_nil.
Qed.

Lemma allGetC_cost fuel d n l : wf d n -> twigsLe B n -> allok l -> cost (allGetC fuel l n d) (allGet fuel l n d) (atMost (length l) (B * length l)).
Proof.
  intros Hwf Ht. induction l as [|e l IH]; intros Hok; cbn [allGetC allGet length]; [apply cost_ret, atMost_nil|].
  eapply (cost_seq _ _ _ _ 1 B (length l) (B * length l)); [apply has_atC_cost; auto; apply Hok; left; auto| |lia|lia].
  intros [|] _; [apply IH; intros x Hx; apply Hok; right; auto|apply cost_ret, atMost_nil].
Qed.

(** [k] calls of the hash and [B] times as many of the equality. *)
Definition within (k : nat) : list ask -> Prop := atMost k (B * k).
(** The bound for two nodes. *)
Definition lesser (a b : nat) : nat := min a (B * b).

Lemma within_le {A} (m : cres A) r h c k : cost m r (atMost h c) -> h <= k -> c <= B * k -> cost m r (within k).
Proof. intros H H1 H2. eapply cost_le; eauto. Qed.

Lemma size_pos d n : wf d n -> 1 <= size n.
Proof. apply wf_nonempty. Qed.
Lemma sizeo_pos d data i c : (forall i c, child data i = Some c -> wf d c) -> child data i = Some c -> 1 <= sizeo (child data i).
Proof. intros H Hc. rewrite Hc. cbn. eapply wf_nonempty; eauto. Qed.

Lemma one_lesser a b : 1 <= a -> 1 <= b -> 1 <= lesser a b.
Proof. unfold lesser. intros. nia. Qed.

Lemma lesser_sum (d1 d2 : list (option node)) l : NoDup l ->
  list_sum (map (fun i => lesser (sizeo (child d1 i)) (sizeo (child d2 i))) l) <= lesser (length (flat_map elemso d1)) (length (flat_map elemso d2)).
Proof.
  intros Hn. unfold lesser. apply Nat.min_glb.
  - eapply Nat.le_trans; [|apply (sum_order d1 l Hn)]. apply sum_le. intros i. lia.
  - eapply Nat.le_trans; [|apply Nat.mul_le_mono_l, (sum_order d2 l Hn)]. rewrite <- sum_mul. apply sum_le. intros i. lia.
Qed.

Lemma cpar_within {P} (fC : nat -> P -> cres (bool * Z * P)) f (d1 d2 : list (option node)) order :
  NoDup order ->
  (forall i x, In i order -> cost (fC i x) (f i x) (within (lesser (sizeo (child d1 i)) (sizeo (child d2 i))))) -> forall m x,
  cost (cpar_loop fC order m x) (par_loop f order m x) (within (lesser (length (flat_map elemso d1)) (length (flat_map elemso d2)))).
Proof.
  intros Hn Hf m x. eapply cost_le; [apply cpar_cost with (wC := fun i => B * lesser (sizeo (child d1 i)) (sizeo (child d2 i))); exact Hf|..].
  - apply lesser_sum; auto.
  - rewrite sum_mul. apply Nat.mul_le_mono_l, lesser_sum; auto.
Qed.

Lemma order_nodup g d m : gaugeOk g -> (m < 2 ^ 16)%N -> NoDup (par_order g d m).
Proof.
  intros Hg Hm. eapply Permutation_NoDup; [apply Permutation_sym, par_order_perm; auto|]. apply mask_indices_NoDup; auto.
Qed.

Lemma near_without d v w n o m : wf d n -> vok v -> wfo vok d o -> remres (vok := vok) (elems n) v (elemso o) m -> forall n', o = Some n' -> near d w n' <= near d w n.
Proof.
  intros Hwf Hv Ho Hr n' ->. assert (Hwf' : wf d n') by (apply Ho; auto). unfold near, cnt.
  assert (Hd' : distinct (elems n')) by (eapply wf_distinct; eauto). assert (Hok' : allok (elems n')) by (eapply wf_allok; eauto).
  apply NoDup_incl_length; [apply NoDup_filter, (distinct_NoDup (vok := vok)); auto|].
  intros e He. apply filter_In in He as [He Ha]. apply filter_In. split; auto.
  eapply (remres_in (vok := vok)); eauto.
Qed.

(** ** Difference *)

Lemma differenceC_cost fuel : forall g d n n2, wf d n -> wf d n2 -> twigsLe B n -> twigsLe B n2 -> gaugeOk g -> fuelBin d <= fuel ->
  cost (differenceC fuel g n n2 d) (difference fuel g n n2 d) (within (lesser (size n) (size n2))).
Proof.
  induction fuel as [|fuel IH]; intros g d n n2 Hwf1 Hwf2 Ht1 Ht2 Hg Hf; [reflexivity|]. unfold fuelBin in Hf.
  pose proof (size_pos _ _ Hwf2) as Hp2. pose proof (wf_depth _ _ Hwf1) as HdD.
  destruct n as [a|a b|l|m1 d1]; cbn [differenceC difference].
  - inversion Hwf1; subst. eapply cost_res; [eapply (within_le _ _ 1 B); [eapply (cost_seq _ _ _ (fun b : bool => Ok (if b then (None, 1%Z) else (Some (Leaf1 a), 0%Z))) 1 B 0 0);
      [apply has_atC_cost; auto| |lia|lia]|..]|].
    + intros x _. apply cost_ret, atMost_nil.
    + apply one_lesser; auto.
    + assert (1 <= lesser (size (Leaf1 a)) (size n2)) by (apply one_lesser; auto). nia.
    + destruct (has_at fuel n2 a d) as [[]| |]; reflexivity.
  - inversion Hwf1; subst.
    assert (Htwo : 2 <= lesser (size (Leaf2 a b)) (size n2)) by (unfold lesser, size in *; cbn [elems length]; nia).
    eapply (within_le _ _ 2 (2 * B)); [|lia|nia].
    eapply (cost_seq _ _ _ _ 1 B 1 B); [apply has_atC_cost; auto| |lia|lia]. intros x _.
    eapply cost_res; [eapply (cost_seq _ _ _ (fun y : bool => Ok (match x, y with true, true => (None, 2%Z) | true, false => (Some (Leaf1 b), 1%Z)
      | false, true => (Some (Leaf1 a), 1%Z) | false, false => (Some (Leaf2 a b), 0%Z) end)) 1 B 0 0); [apply has_atC_cost; auto| |lia|lia]|].
    + intros y _. apply cost_ret, atMost_nil.
    + destruct (has_at fuel n2 b d) as [[]| |]; destruct x; reflexivity.
  - inversion Hwf1 as [| |d' l' Hd Hl Hok Hdis|]; subst. inversion Ht1; subst.
    eapply (within_le _ _ (length l) (B * length l)).
    + eapply (cost_seq _ _ _ _ (length l) (B * length l) 0 0); [apply filterGetC_cost; auto| |lia|lia]. intros [l' m] _.
      eapply (cost_seq _ _ _ _ 0 0 0 0); [apply canonicalTwigC_max; auto| |lia|lia]. intros o _. apply cost_ret, atMost_nil.
    + unfold lesser, size in *. cbn [elems]. nia.
    + unfold lesser, size in *. cbn [elems]. nia.
  - pose proof (size_pos _ _ Hwf1) as Hp1.
    inversion Hwf1 as [| | |d' m' data' Hd Hlen1 Hm1 Hch1 Hpl1 Hl1]; subst d' m' data'. inversion Ht1 as [| | |m' data' Htc1]; subst m' data'.
    destruct n2 as [a|a b|l|m2 d2].
    + assert (Hva : vok a) by (inversion Hwf2; auto). eapply (within_le _ _ 1 B); [|apply one_lesser; auto|assert (1 <= lesser (size (Branch m1 d1)) (size (Leaf1 a))) by (apply one_lesser; auto); nia].
      apply cost_thenhash. eapply cost_le; [apply (withoutC_cost (vok := vok)); auto|lia|]. pose proof (near_twigs B a _ HB Ht1 d Hwf1). lia.
    + assert (Hva : vok a) by (inversion Hwf2; auto). assert (Hvb : vok b) by (inversion Hwf2; auto).
      assert (Htwo : 2 <= lesser (size (Branch m1 d1)) (size (Leaf2 a b))) by (unfold lesser, size in *; cbn [elems length] in *; nia).
      eapply (within_le _ _ 2 (2 * B)); [|lia|nia].
      apply cost_thenhash. destruct (without_wf (vok := vok) fuel d (Branch m1 d1) a) as (o & m & E1 & Ho & Hr & _); auto; [unfold fuelAt; lia|].
      eapply (cost_seq _ _ _ _ 0 B 1 B); [eapply cost_le; [apply (withoutC_cost (vok := vok)); auto|lia|pose proof (near_twigs B a _ HB Ht1 d Hwf1); lia]| |lia|lia].
      intros [o' m'] Eo. rewrite E1 in Eo. injection Eo as <- <-. apply cost_thenhash. destruct o as [n1|]; [|reflexivity].
      eapply (cost_seq _ _ _ _ 0 B 0 0); [eapply cost_le; [apply (withoutC_cost (vok := vok)); auto|lia|]| |lia|lia].
      * pose proof (near_without d a b _ _ _ Hwf1 Hva Ho Hr n1 eq_refl). pose proof (near_twigs B b _ HB Ht1 d Hwf1). lia.
      * intros [o2 m2] _. apply cost_ret, atMost_nil.
    + reflexivity.
    + inversion Hwf2 as [| | |d' m' data' Hd' Hlen2 Hm2 Hch2 Hpl2 Hl2]; subst d' m' data'. inversion Ht2 as [| | |m' data' Htc2]; subst m' data'.
      unfold parallel. eapply cost_weak with (P := within (lesser (length (flat_map elemso d1)) (length (flat_map elemso d2)))).
      * eapply cost_seq; [eapply cpar_within with (d1 := d1) (d2 := d2)| |rewrite Nat.add_0_r; reflexivity|rewrite Nat.add_0_r; reflexivity].
        -- apply order_nodup; auto. subst m1. apply updateMask_lt.
        -- intros i x _. destruct (child d1 i) as [c1|] eqn:E1, (child d2 i) as [c2|] eqn:E2; try (apply cost_ret, atMost_nil); [|reflexivity].
           eapply cost_seq; [apply IH; eauto; [apply gaugeOk_sub; auto|unfold fuelBin; lia]| |rewrite Nat.add_0_r; reflexivity|rewrite Nat.add_0_r; reflexivity].
           intros [r m] _. apply cost_ret, atMost_nil.
        -- intros [[ok m] ret] _. eapply (cost_seq _ _ _ _ 0 0 0 0); [apply canonicalC_branch| |lia|lia]. intros o _. apply cost_ret, atMost_nil.
      * intros tr Ht. unfold size. rewrite !elems_branch. exact Ht.
Qed.
(** ** Intersection *)

Lemma intersectLeaf1C_cost fuel d a n2 : wf d n2 -> twigsLe B n2 -> vok a ->
  cost (intersectLeaf1C fuel a n2 d) (intersectLeaf1 fuel a n2 d) (atMost 1 B).
Proof.
  intros Hwf Ht Ha. unfold intersectLeaf1C, intersectLeaf1.
  eapply cost_res; [eapply (cost_seq _ _ _ (fun b : bool => Ok (if b then (Some (Leaf1 a), 1%Z) else (None, 0%Z))) 1 B 0 0);
      [apply has_atC_cost; eauto| |lia|lia]|].
  - intros x _. apply cost_ret, atMost_nil.
  - destruct (has_at fuel n2 a d) as [[]| |]; reflexivity.
Qed.
Lemma intersectLeaf2C_cost fuel d a b n2 : wf d n2 -> twigsLe B n2 -> vok a -> vok b ->
  cost (intersectLeaf2C fuel a b n2 d) (intersectLeaf2 fuel a b n2 d) (atMost 2 (2 * B)).
Proof.
  intros Hwf Ht Ha Hb. unfold intersectLeaf2C, intersectLeaf2.
  eapply (cost_seq _ _ _ _ 1 B 1 B); [apply has_atC_cost; auto| |lia|lia]. intros x _.
  eapply cost_res; [eapply (cost_seq _ _ _ (fun y : bool => Ok (match x, y with true, true => (Some (Leaf2 a b), 2%Z) | true, false => (Some (Leaf1 a), 1%Z)
    | false, true => (Some (Leaf1 b), 1%Z) | false, false => (None, 0%Z) end)) 1 B 0 0); [apply has_atC_cost; auto| |lia|lia]|].
  - intros y _. apply cost_ret, atMost_nil.
  - destruct (has_at fuel n2 b d) as [[]| |]; destruct x; reflexivity.
Qed.

Lemma intersectionC_cost fuel : forall g d n n2, wf d n -> wf d n2 -> twigsLe B n -> twigsLe B n2 -> gaugeOk g ->
  cost (intersectionC fuel g n n2 d) (intersection fuel g n n2 d) (within (lesser (size n) (size n2))).
Proof.
  induction fuel as [|fuel IH]; intros g d n n2 Hwf1 Hwf2 Ht1 Ht2 Hg; [reflexivity|].
  pose proof (size_pos _ _ Hwf2) as Hp2. pose proof (size_pos _ _ Hwf1) as Hp1.
  pose proof (one_lesser _ _ Hp1 Hp2) as Hone.
  destruct n as [a|a b|l|m1 d1]; cbn [intersectionC intersection].
  - eapply (within_le _ _ 1 B); [apply intersectLeaf1C_cost; auto; inversion Hwf1; auto|lia|nia].
  - eapply (within_le _ _ 2 (2 * B)); [apply intersectLeaf2C_cost; auto; inversion Hwf1; auto|..];
      unfold lesser, size in *; cbn [elems length] in *; nia.
  - inversion Hwf1 as [| |d' l' Hd Hl Hok Hdis|]; subst. inversion Ht1; subst.
    eapply (within_le _ _ (length l) (B * length l)).
    + eapply (cost_seq _ _ _ _ (length l) (B * length l) 0 0); [apply filterGetC_cost; auto| |lia|lia]. intros [l' m] _.
      eapply (cost_seq _ _ _ _ 0 0 0 0); [apply canonicalTwigC_max; auto| |lia|lia]. intros o _. apply cost_ret, atMost_nil.
    + unfold lesser, size in *. cbn [elems] in *. nia.
    + unfold lesser, size in *. cbn [elems] in *. nia.
  - inversion Hwf1 as [| | |d' m' data' Hd Hlen1 Hm1 Hch1 Hpl1 Hl1]; subst d' m' data'. inversion Ht1 as [| | |m' data' Htc1]; subst m' data'.
    destruct n2 as [a|a b|l|m2 d2].
    + eapply (within_le _ _ 1 B); [apply intersectLeaf1C_cost; auto; inversion Hwf2; auto|lia|nia].
    + eapply (within_le _ _ 2 (2 * B)); [apply intersectLeaf2C_cost; auto; inversion Hwf2; auto|..];
        unfold lesser, size in *; cbn [elems length] in *; nia.
    + reflexivity.
    + inversion Hwf2 as [| | |d' m' data' Hd' Hlen2 Hm2 Hch2 Hpl2 Hl2]; subst d' m' data'. inversion Ht2 as [| | |m' data' Htc2]; subst m' data'.
      unfold parallel. eapply cost_weak with (P := within (lesser (length (flat_map elemso d1)) (length (flat_map elemso d2)))).
      * eapply cost_seq; [eapply cpar_within with (d1 := d1) (d2 := d2)| |rewrite Nat.add_0_r; reflexivity|rewrite Nat.add_0_r; reflexivity].
        -- apply order_nodup; auto. apply lt_pow_land. subst m1. apply updateMask_lt.
        -- intros i x _. destruct (child d1 i) as [c1|] eqn:E1, (child d2 i) as [c2|] eqn:E2; try reflexivity.
           eapply cost_seq; [apply IH; eauto; apply gaugeOk_sub; auto| |rewrite Nat.add_0_r; reflexivity|rewrite Nat.add_0_r; reflexivity].
           intros [r m] _. apply cost_ret, atMost_nil.
        -- intros [[ok m] ret] _. eapply (cost_seq _ _ _ _ 0 0 0 0); [apply canonicalC_branch| |lia|lia]. intros o _. apply cost_ret, atMost_nil.
      * intros tr Ht. unfold size. rewrite !elems_branch. exact Ht.
Qed.

(** ** SubsetOf and Equal *)

Lemma subsetOfC_cost fuel : forall g d n n2, wf d n -> wf d n2 -> twigsLe B n -> twigsLe B n2 -> gaugeOk g ->
  cost (subsetOfC fuel g n n2 d) (subsetOf fuel g n n2 d) (within (lesser (size n) (size n2))).
Proof.
  induction fuel as [|fuel IH]; intros g d n n2 Hwf1 Hwf2 Ht1 Ht2 Hg; [reflexivity|].
  pose proof (size_pos _ _ Hwf2) as Hp2. pose proof (size_pos _ _ Hwf1) as Hp1.
  pose proof (one_lesser _ _ Hp1 Hp2) as Hone.
  destruct n as [a|a b|l|m1 d1]; cbn [subsetOfC subsetOf].
  - eapply (within_le _ _ 1 B); [apply has_atC_cost; auto; inversion Hwf1; auto|lia|nia].
  - assert (Htwo : 2 <= lesser (size (Leaf2 a b)) (size n2)) by (unfold lesser, size in *; cbn [elems length] in *; nia).
    eapply (within_le _ _ 2 (2 * B)); [|lia|nia].
    eapply (cost_seq _ _ _ _ 1 B 1 B); [apply has_atC_cost; auto; inversion Hwf1; auto| |lia|lia].
    intros [|] _; [apply has_atC_cost; auto; inversion Hwf1; auto|apply cost_ret, atMost_nil].
  - inversion Hwf1 as [| |d' l' Hd Hl Hok Hdis|]; subst. inversion Ht1; subst.
    eapply (within_le _ _ (length l) (B * length l)); [apply allGetC_cost; auto|..]; unfold lesser, size in *; cbn [elems] in *; nia.
  - inversion Hwf1 as [| | |d' m' data' Hd Hlen1 Hm1 Hch1 Hpl1 Hl1]; subst d' m' data'. inversion Ht1 as [| | |m' data' Htc1]; subst m' data'.
    destruct n2 as [a|a b|l|m2 d2]; try (apply cost_ret, atMost_nil).
    inversion Hwf2 as [| | |d' m' data' Hd' Hlen2 Hm2 Hch2 Hpl2 Hl2]; subst d' m' data'. inversion Ht2 as [| | |m' data' Htc2]; subst m' data'.
    unfold parallel. eapply cost_weak with (P := within (lesser (length (flat_map elemso d1)) (length (flat_map elemso d2)))).
    + eapply cost_seq; [eapply cpar_within with (d1 := d1) (d2 := d2)| |rewrite Nat.add_0_r; reflexivity|rewrite Nat.add_0_r; reflexivity].
      * apply order_nodup; auto. subst m1 m2. apply lt_pow_lor; apply updateMask_lt.
      * intros i x _. destruct (child d1 i) as [c1|] eqn:E1, (child d2 i) as [c2|] eqn:E2; try (apply cost_ret, atMost_nil).
        eapply cost_seq; [apply IH; eauto; apply gaugeOk_sub; auto| |rewrite Nat.add_0_r; reflexivity|rewrite Nat.add_0_r; reflexivity].
        intros b _. apply cost_ret, atMost_nil.
      * intros [[ok m] ret] _. apply cost_ret, (atMost_nil 0 0).
    + intros tr Ht. unfold size. rewrite !elems_branch. exact Ht.
Qed.

Lemma anyEqC_cost eq (e : T) l : cost (anyEqC eq e l) (Ok (existsb (fun f => eq e f) l)) (atMost 0 (length l)).
Proof.
  induction l as [|f l IH]; cbn [anyEqC existsb length]; [apply cost_ret, atMost_nil|].
  apply cost_ifeq. destruct (eq e f); [apply cost_ret, atMost_nil|exact IH].
Qed.
Lemma allInC_cost eq (l l2 : list T) : cost (allInC eq l l2) (Ok (allIn eq l l2)) (atMost 0 (length l2 * length l)).
Proof.
  unfold allIn. induction l as [|e l IH]; cbn [allInC forallb length]; [apply cost_ret, atMost_nil|].
  eapply (cost_seq _ (Ok (existsb (fun f => eq e f) l2)) _ (fun p : bool => Ok (p && forallb (fun e => existsb (fun f => eq e f) l2) l)%bool) 0 (length l2) 0 (length l2 * length l));
    [apply anyEqC_cost| |lia|lia].
  intros [|] _; [exact IH|apply cost_ret, atMost_nil].
Qed.
Lemma pairEqC_cost eq (a b c d : T) : cost (pairEqC eq a b c d) (Ok (eq a c && eq b d)%bool) (atMost 0 2).
Proof.
  unfold pairEqC. apply cost_ifeq. destruct (eq a c); cbn [andb]; [|apply cost_ret, atMost_nil]. apply cost_eq. split; cbn; auto.
Qed.

Lemma equalC_cost fuel eq : forall g d n n2, wf d n -> wf d n2 -> twigsLe B n -> gaugeOk g ->
  cost (equalC fuel g eq n n2 d) (equal fuel g eq n n2 d) (atMost 0 (B * size n)).
Proof.
  induction fuel as [|fuel IH]; intros g d n n2 Hwf1 Hwf2 Ht1 Hg; [reflexivity|].
  destruct n as [a|a b|l|m1 d1], n2 as [a2|a2 b2|l2|m2 d2]; cbn [equalC equal]; try (apply cost_ret, atMost_nil).
  - apply cost_eq. unfold size. split; cbn; nia.
  - eapply cost_le with (h1 := 0) (c1 := 4); [|lia|unfold size; cbn [elems length]; nia].
    eapply cost_res; [eapply (cost_seq _ _ _ (fun p : bool => Ok (p || (eq a b2 && eq b a2))%bool) 0 2 0 2); [apply pairEqC_cost| |lia|lia]|reflexivity].
    intros [|] _; [apply cost_ret, atMost_nil|apply pairEqC_cost].
  - destruct (Nat.eqb_spec (length l) (length l2)); [|apply cost_ret, atMost_nil]. inversion Ht1; subst.
    eapply cost_le; [apply allInC_cost|lia|unfold size; cbn [elems]; nia].
  - inversion Hwf1 as [| | |d' m' data' Hd Hlen1 Hm1 Hch1 Hpl1 Hl1]; subst d' m' data'. inversion Ht1 as [| | |m' data' Htc1]; subst m' data'.
    inversion Hwf2 as [| | |d' m' data' Hd' Hlen2 Hm2 Hch2 Hpl2 Hl2]; subst d' m' data'.
    destruct (m1 =? m2)%N; [|apply cost_ret, atMost_nil]. unfold parallel.
    eapply (cost_seq _ _ _ _ 0 (B * size (Branch m1 d1)) 0 0); [| |lia|lia].
    + eapply cost_le; [apply cpar_cost with (wH := fun _ => 0) (wC := fun i => B * sizeo (child d1 i))|..].
      * intros i x _. destruct (child d1 i) as [c1|] eqn:E1, (child d2 i) as [c2|] eqn:E2; try reflexivity.
        eapply (cost_seq _ _ _ _ 0 (B * size c1) 0 0); [apply IH; eauto; apply gaugeOk_sub; auto| |lia|cbn; unfold size; lia].
        intros b _. apply cost_ret, atMost_nil.
      * assert (H : forall l : list nat, list_sum (map (fun _ => 0) l) = 0) by (induction l as [|x l IHl]; auto). rewrite H. auto.
      * rewrite sum_mul. apply Nat.mul_le_mono_l. unfold size. rewrite elems_branch. apply sum_order, order_nodup; auto. subst m1. apply updateMask_lt.
    + intros [[ok m] ret] _. apply cost_ret, atMost_nil.
Qed.

(** ** Combine *)

(** [k] insertions. *)
Definition inserts (k : nat) : list ask -> Prop := atMost ((1 + 3 * D) * k) (max (S B) (2 + 3 * D) * k).

Lemma inserts_le {A} (m : cres A) r h c k : cost m r (atMost h c) -> h <= (1 + 3 * D) * k -> c <= (2 + 3 * D) * k -> cost m r (inserts k).
Proof. intros H H1 H2. eapply cost_le; eauto. nia. Qed.

Lemma near_with cf d v w n r m : wf d n -> vok v -> wf d r -> cfok (vok := vok) cf -> addres (vok := vok) cf (elems n) v (elems r) m -> near d w r <= S (near d w n).
Proof.
  intros Hwf Hv Hwr Hcf Hr. unfold near, cnt.
  pose proof (wf_distinct _ _ Hwr) as Hd'. pose proof (wf_allok _ _ Hwr) as Hok'. pose proof (wf_allok _ _ Hwf) as Hok.
  change (S (length (filter (Clash.agree d D w) (elems n)))) with (length (v :: filter (Clash.agree d D w) (elems n))).
  apply (distinct_length_le (vok := vok)).
  - apply distinct_filter; auto.
  - apply allok_filter; auto.
  - intros e [<-|He]; auto. apply filter_In in He as [He _]; auto.
  - intros e He. apply filter_In in He as [He Ha].
    destruct (addres_in (vok := vok) cf (elems n) v (elems r) m e) as [H|H]; auto.
    + exists e. split; [right; apply filter_In; auto|apply veq_refl; auto].
    + exists v. split; [left; auto|apply veq_sym; auto].
Qed.

Lemma withC_inserts fuel d args n v : fuelAt d <= fuel -> c_eq args = veq -> wf d n -> vok v -> near d v n <= S B ->
  cost (h <c hashC v d ;; withC fuel (c_eq args) (c_f args) n v d h) (with_ fuel args n v d (newHasher v d)) (inserts 1).
Proof.
  intros Hf Heq Hwf Hv Hn. eapply cost_le; [apply cost_thenhash, (withC_cost (vok := vok)); auto|lia|lia].
Qed.

Lemma with2C_inserts fuel d args n a b : fuelAt d <= fuel -> c_eq args = veq -> cfok (vok := vok) (c_f args) -> wf d n -> twigsLe B n -> vok a -> vok b ->
  cost (h <c hashC a d ;; '(n', m1) <c withC fuel (c_eq args) (c_f args) n a d h ;; h' <c hashC b d ;;
        '(n'', m2) <c withC fuel (c_eq args) (c_f args) n' b d h' ;; cret (n'', (m1 + m2)%Z))
    ('(n', m1) <- with_ fuel args n a d (newHasher a d) ;; '(n'', m2) <- with_ fuel args n' b d (newHasher b d) ;; Ok (n'', (m1 + m2)%Z)) (inserts 2).
Proof.
  intros Hf Heq Hcf Hwf Ht Ha Hb.
  pose proof (near_twigs B a n HB Ht d Hwf) as Hna. pose proof (near_twigs B b n HB Ht d Hwf) as Hnb.
  destruct (with_wf (vok := vok) d fuel args n a) as (n' & m1 & E1 & Hwf' & Hr); auto.
  pose proof (near_with (c_f args) d a b n n' m1 Hwf Ha Hwf' Hcf Hr) as Hn'.
  eapply cost_le with (h1 := S (3 * D + (1 + 3 * D))) (c1 := max (S B) (2 + 3 * D) + max (S B) (2 + 3 * D)); [|lia|lia].
  apply cost_thenhash. eapply cost_seq with (h1 := 3 * D) (c1 := max (S B) (2 + 3 * D)) (h2 := 1 + 3 * D) (c2 := max (S B) (2 + 3 * D)); [| |lia|lia].
  - eapply cost_le; [apply (withC_cost (vok := vok)); auto|lia|lia].
  - intros [x m] Ex. rewrite E1 in Ex. injection Ex as <- <-. apply cost_thenhash.
    eapply (cost_seq _ _ _ _ (3 * D) (max (S B) (2 + 3 * D)) 0 0); [| |lia|lia].
    + eapply cost_le; [apply (withC_cost (vok := vok)); auto|lia|lia].
    + intros [y my] _. apply cost_ret, atMost_nil.
Qed.

Lemma nbf3C fuel d a b c : 2 * (D - d) <= fuel -> distinct [a; b; c] -> allok [a; b; c] ->
  cost (newBranchFromC fuel d [a; b; c]) (newBranchFrom fuel d [a; b; c]) (atMost (3 * (D - d)) (3 * (D - d))).
Proof.
  intros Hf Hd Hok. apply (newBranchFrom3_cost (vok := vok)); auto; intros Hlt; [apply addB_fuel; auto|apply addCostB_fuel; auto].
Qed.

Lemma combineLeaf21C_cost fuel args d l0 l1 nd : c_eq args = veq -> 2 * (D - d) <= fuel -> vok l0 -> vok l1 -> veq l0 l1 = false -> vok nd ->
  cost (combineLeaf21C fuel args d l0 l1 nd) (combineLeaf21 fuel args d l0 l1 nd) (atMost (3 * (D - d)) (2 + 3 * (D - d))).
Proof.
  intros Heq Hf H0 H1 H01 Hn. unfold combineLeaf21C, combineLeaf21. rewrite Heq. change (2 + 3 * (D - d)) with (S (S (3 * (D - d)))).
  apply cost_ifeq. destruct (veq l0 nd) eqn:E1; [apply cost_ret, atMost_nil|].
  apply cost_ifeq. destruct (veq l1 nd) eqn:E2; [apply cost_ret, atMost_nil|].
  eapply (cost_seq _ _ _ _ (3 * (D - d)) (3 * (D - d)) 0 0); [apply nbf3C; auto| |lia|lia].
  - apply distinct3; auto.
  - intros e [<-|[<-|[<-|[]]]]; auto.
  - intros r _. apply cost_ret, atMost_nil.
Qed.

Lemma combineLeaf2C_step_cost fuel args d l0 l1 n0 n1 : c_eq args = veq -> cfok (vok := vok) (c_f args) -> 2 * (D - d) <= fuel ->
  vok l0 -> vok l1 -> veq l0 l1 = false -> vok n0 -> vok n1 -> veq n0 n1 = false ->
  match combineLeaf2_step fuel args d l0 l1 n0 n1 with
  | Some r => cost (combineLeaf2C_step fuel args d l0 l1 n0 n1) (rmap Some r) (atMost (3 * (D - d)) (2 + 3 * (D - d)))
  | None => cost (combineLeaf2C_step fuel args d l0 l1 n0 n1) (Ok None) (atMost 0 2)
  end.
Proof.
  intros Heq Hcf Hf H0 H1 H01 Hn0 Hn1 Hn01. unfold combineLeaf2C_step, combineLeaf2_step. rewrite Heq.
  change (2 + 3 * (D - d)) with (S (S (3 * (D - d)))).
  assert (Hb : forall data, length data = 3 -> distinct data -> allok data ->
    cost (b <c newBranchFromC fuel d data ;; cret (Some (b, 1%Z))) (rmap Some (b <- newBranchFrom fuel d data ;; Ok (b, 1%Z))) (atMost (3 * (D - d)) (3 * (D - d)))).
  { intros [|x [|y [|z [|? ?]]]] Hl Hd Hok; try discriminate.
    eapply cost_res; [eapply (cost_seq _ _ _ (fun b => Ok (Some (b, 1%Z))) (3 * (D - d)) (3 * (D - d)) 0 0); [apply nbf3C; auto| |lia|lia]|].
    - intros r _. apply cost_ret, atMost_nil.
    - destruct (newBranchFrom fuel d [x; y; z]); reflexivity. }
  destruct (veq l0 n0) eqn:E0; [destruct (veq l1 n1) eqn:E1|destruct (veq l1 n1) eqn:E1].
  - apply cost_ifeq. rewrite E0. apply cost_ifeq. rewrite E1. apply cost_ret, atMost_nil.
  - apply cost_ifeq. rewrite E0. apply cost_ifeq. rewrite E1. destruct (Hcf l0 n0) as [Hr1 Hr2]; auto.
    assert (Hr3 : veq (c_f args l0 n0) l0 = true) by (apply (veq_trans _ n0 l0); auto; apply veq_sym; auto).
    apply Hb; auto.
    + apply distinct3; auto.
      * rewrite <- H01. symmetry. apply veq_trans_l; auto.
      * rewrite <- Hn01. symmetry. apply veq_trans_l; auto.
    + intros e [<-|[<-|[<-|[]]]]; auto.
  - apply cost_ifeq. rewrite E0. apply cost_ifeq. rewrite E1. destruct (Hcf l1 n1) as [Hr1 Hr2]; auto.
    assert (Hr3 : veq (c_f args l1 n1) l1 = true) by (apply (veq_trans _ n1 l1); auto; apply veq_sym; auto).
    apply Hb; auto.
    + pose proof (veq_false_sym (vok := vok) l0 l1 H0 H1 H01) as H10. pose proof (veq_false_sym (vok := vok) n0 n1 Hn0 Hn1 Hn01) as Hn10.
      apply distinct3; auto; apply (veq_false_sym (vok := vok)); auto.
      * rewrite <- H10. symmetry. apply veq_trans_l; auto.
      * rewrite <- Hn10. symmetry. apply veq_trans_l; auto.
    + intros e [<-|[<-|[<-|[]]]]; auto.
  - apply cost_ifeq. rewrite E0. apply cost_ifeq. rewrite E1. apply cost_ret, atMost_nil.
Qed.

Lemma combineLeaf2C_cost fuel args d l0 l1 n0 n1 : c_eq args = veq -> cfok (vok := vok) (c_f args) -> 2 * (D - d) <= fuel ->
  vok l0 -> vok l1 -> veq l0 l1 = false -> vok n0 -> vok n1 -> veq n0 n1 = false ->
  cost (combineLeaf2C fuel args d l0 l1 n0 n1) (combineLeaf2 fuel args d l0 l1 n0 n1) (atMost (6 * (D - d)) (4 + 6 * (D - d))).
Proof.
  intros Heq Hcf Hf H0 H1 H01 Hn0 Hn1 Hn01. unfold combineLeaf2C, combineLeaf2.
  assert (Hn10 : veq n1 n0 = false) by (apply veq_false_sym; auto).
  pose proof (combineLeaf2C_step_cost fuel args d l0 l1 n0 n1 Heq Hcf Hf H0 H1 H01 Hn0 Hn1 Hn01) as S1.
  pose proof (combineLeaf2C_step_cost fuel args d l0 l1 n1 n0 Heq Hcf Hf H0 H1 H01 Hn1 Hn0 Hn10) as S2.
  assert (Hsome : forall (m : @cres T (option (node * Z))) r k h c, cost m (rmap Some r) (atMost h c) ->
    cost (o <c m ;; match o with Some r => cret r | None => k end) r (atMost h c)).
  { intros m r k h c Hm. eapply cost_res; [eapply (cost_seq _ _ _ (fun o => match o with Some r => Ok r | None => Panic end) h c 0 0); [exact Hm| |lia|lia]|].
    - intros o Eo. destruct r; try discriminate. injection Eo as <-. apply cost_ret, atMost_nil.
    - destruct r; reflexivity. }
  assert (Hnone : forall (m : @cres T (option (node * Z))) k r h c, cost m (Ok None) (atMost 0 2) -> cost k r (atMost h c) ->
    cost (o <c m ;; match o with Some r => cret r | None => k end) r (atMost h (2 + c))).
  { intros m k r h c Hm Hk. apply (cost_seq m (Ok None) _ (fun _ => r) 0 2 h c); auto. intros o [= <-]. exact Hk. }
  destruct (combineLeaf2_step fuel args d l0 l1 n0 n1) as [r|] eqn:E1.
  - eapply cost_le; [apply Hsome, S1|lia|lia].
  - change (4 + 6 * (D - d)) with (2 + (2 + 6 * (D - d))). apply Hnone; auto.
    destruct (combineLeaf2_step fuel args d l0 l1 n1 n0) as [r|] eqn:E2.
    + eapply cost_le; [apply Hsome, S2|lia|lia].
    + apply Hnone; auto.
      eapply (cost_seq _ _ _ _ (6 * (D - d)) (6 * (D - d)) 0 0); [apply (newBranchFrom4_cost (vok := vok))| |lia|lia].
      * intros Hlt. apply addB_fuel; auto.
      * intros Hlt. apply addCostB_fuel; auto.
      * unfold combineLeaf2_step in E1, E2. rewrite Heq in *.
        destruct (veq l0 n0) eqn:A1; [destruct (veq l1 n1); discriminate|]. destruct (veq l1 n1) eqn:A2; [discriminate|].
        destruct (veq l0 n1) eqn:A3; [destruct (veq l1 n0); discriminate|]. destruct (veq l1 n0) eqn:A4; [discriminate|].
        repeat constructor; intros x; simpl; intuition (subst; auto).
      * intros e [<-|[<-|[<-|[<-|[]]]]]; auto.
      * intros r _. apply cost_ret, atMost_nil.
Qed.

Lemma combineC_cost fuel : forall d args n n2, wf d n -> wf d n2 -> twigsLe B n -> twigsLe B n2 ->
  c_eq args = veq -> cfok (vok := vok) (c_f args) -> gaugeOk (c_gauge args) -> fuelBin d <= fuel ->
  cost (combineC fuel args n n2 d) (combine fuel args n n2 d) (inserts (min (size n) (size n2))).
Proof.
  induction fuel as [|fuel IH]; intros d args n n2 Hwf1 Hwf2 Ht1 Ht2 Heq Hcf Hg Hf; [reflexivity|]. unfold fuelBin in Hf.
  assert (Hcff : cfok (vok := vok) (c_f (flip_args args))) by (simpl; apply cfok_flip; auto).
  assert (Hone : forall v m, wf d m -> twigsLe B m -> near d v m <= S B) by (intros v m Hm Htm; pose proof (near_twigs B v m HB Htm d Hm); lia).
  pose proof (size_pos _ _ Hwf1) as Hp1. pose proof (size_pos _ _ Hwf2) as Hp2.
  destruct n as [a|a b|l|m1 d1].
  - assert (Ha : vok a) by (inversion Hwf1; auto). destruct n2 as [a2|a2 b2|l2|m2 d2]; cbn [combineC combine].
    + change (min (size (Leaf1 a)) (size (Leaf1 a2))) with 1. eapply inserts_le with (h := 0) (c := 1); [|lia|lia].
      unfold combineLeaf1C, combineLeaf1. apply cost_ifeq, cost_ret, atMost_nil.
    + change (min (size (Leaf1 a)) (size (Leaf2 a2 b2))) with 1.
      eapply inserts_le; [apply combineLeaf21C_cost; auto; try lia; inversion Hwf2; auto|lia|lia].
    + reflexivity.
    + replace (min (size (Leaf1 a)) (size (Branch m2 d2))) with 1 by (unfold size in *; cbn [elems length] in *; lia).
      apply (withC_inserts fuel d (flip_args args)); auto. unfold fuelAt; lia.
  - assert (Ha : vok a) by (inversion Hwf1; auto). assert (Hb : vok b) by (inversion Hwf1; auto). assert (Hab : veq a b = false) by (inversion Hwf1; auto).
    destruct n2 as [a2|a2 b2|l2|m2 d2]; cbn [combineC combine].
    + change (min (size (Leaf2 a b)) (size (Leaf1 a2))) with 1.
      eapply inserts_le; [apply combineLeaf21C_cost; auto; try lia; inversion Hwf2; auto|lia|lia].
    + change (min (size (Leaf2 a b)) (size (Leaf2 a2 b2))) with 2.
      eapply inserts_le; [apply combineLeaf2C_cost; auto; try lia; inversion Hwf2; auto|lia|lia].
    + reflexivity.
    + replace (min (size (Leaf2 a b)) (size (Branch m2 d2))) with 2
        by (inversion Hwf2; unfold size in *; cbn [length] in *; change (length (elems (Leaf2 a b))) with 2; lia).
      apply (with2C_inserts fuel d (flip_args args)); auto. unfold fuelAt; lia.
  - destruct n2 as [a2|a2 b2|l2|m2 d2]; cbn [combineC combine]; try reflexivity. apply cost_lift, atMost_nil.
  - destruct n2 as [a2|a2 b2|l2|m2 d2]; cbn [combineC combine].
    + replace (min (size (Branch m1 d1)) (size (Leaf1 a2))) with 1 by (change (size (Leaf1 a2)) with 1; lia).
      apply withC_inserts; auto; [unfold fuelAt; lia|inversion Hwf2; auto].
    + replace (min (size (Branch m1 d1)) (size (Leaf2 a2 b2))) with 2
        by (inversion Hwf1; change (size (Leaf2 a2 b2)) with 2; unfold size; lia).
      apply with2C_inserts; auto; [unfold fuelAt; lia|inversion Hwf2; auto|inversion Hwf2; auto].
    + reflexivity.
    + inversion Hwf1 as [| | |d' m' data' Hd Hlen1 Hm1 Hch1 Hpl1 Hl1]; subst d' m' data'. inversion Ht1 as [| | |m' data' Htc1]; subst m' data'.
      inversion Hwf2 as [| | |d' m' data' Hd' Hlen2 Hm2 Hch2 Hpl2 Hl2]; subst d' m' data'. inversion Ht2 as [| | |m' data' Htc2]; subst m' data'.
      assert (Hn : NoDup (par_order (c_gauge args) d (N.lor m1 m2))) by (apply order_nodup; auto; subst m1 m2; apply lt_pow_lor; apply updateMask_lt).
      assert (Hs : list_sum (map (fun i => min (sizeo (child d1 i)) (sizeo (child d2 i))) (par_order (c_gauge args) d (N.lor m1 m2))) <= min (size (Branch m1 d1)) (size (Branch m2 d2))).
      { unfold size. rewrite !elems_branch. apply Nat.min_glb; (eapply Nat.le_trans; [|apply sum_order, Hn]); apply sum_le; intros i; lia. }
      unfold parallel. eapply cost_seq with (h2 := 0) (c2 := 0);
        [apply cpar_cost with (wH := fun i => (1 + 3 * D) * min (sizeo (child d1 i)) (sizeo (child d2 i)))
          (wC := fun i => max (S B) (2 + 3 * D) * min (sizeo (child d1 i)) (sizeo (child d2 i)))|..].
      * intros i x _. destruct (child d1 i) as [c1|] eqn:E1, (child d2 i) as [c2|] eqn:E2; try (apply cost_ret, atMost_nil).
        eapply cost_seq with (h2 := 0) (c2 := 0); [apply (IH (S d) (c_sub i args)); eauto; [apply gaugeOk_sub; auto|unfold fuelBin; lia]| |..].
        -- intros [r m] _. apply cost_ret, atMost_nil.
        -- rewrite Nat.add_0_r. reflexivity.
        -- rewrite Nat.add_0_r. reflexivity.
      * intros [[ok m] ret] _. apply cost_ret, atMost_nil.
      * rewrite Nat.add_0_r, sum_mul. apply Nat.mul_le_mono_l; auto.
      * rewrite Nat.add_0_r, sum_mul. apply Nat.mul_le_mono_l; auto.
Qed.

End Bound.
End CostBin.
