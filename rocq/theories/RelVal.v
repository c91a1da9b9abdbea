(** * RelVal: a concrete type of attribute values that contains relations.

    It shows that the assumptions of RelFacts about [any] can be met: values are integers or relations
    whose tuples hold values again, to any depth. *)
From Verif Require Import Base Bits Env EnvFacts Node NodeWf Iter Tree TreeFacts SetApi SetFacts MapApi MapFacts GroupFacts Rel RelFacts.

(** ** A change of equality and hash that does not touch the elements of a set *)
Section Change.
Context {E : Env} {T : Type} (K1 K2 : Key T) (ok1 ok2 : T -> Prop).
Local Opaque maxTreeDepth fanout fb.

Lemma distinct_change l : (forall a b, In a l -> In b l -> @veq _ K1 a b = @veq _ K2 a b) -> @distinct T K1 l -> @distinct T K2 l.
Proof.
  intros H Hd. induction Hd as [|a l Ha Hd IH]; constructor.
  - intros b Hb. rewrite <- H; [auto|left; auto|right; auto].
  - apply IH. intros x y Hx Hy. apply H; right; auto.
Qed.

Lemma wf_change d n : @wf E T K1 ok1 d n -> (forall a, In a (elems n) -> ok2 a) ->
  (forall a b, In a (elems n) -> In b (elems n) -> @veq _ K1 a b = @veq _ K2 a b) ->
  (forall a seed, In a (elems n) -> @vhash _ K1 a seed = @vhash _ K2 a seed) -> @wf E T K2 ok2 d n.
Proof.
  induction 1 as [d a Hd Ha|d a b Hd Ha Hb Hab|d l Hd Hl Hok Hdis|d m data Hd Hlen Hm Hc IH Hp Hl]; intros HO HQ HH.
  - constructor; auto. apply HO. left; auto.
  - constructor; auto; try (apply HO; cbn; auto). rewrite <- HQ; auto; cbn; auto.
  - constructor; auto. apply (distinct_change l); auto.
  - assert (Hin : forall i c a, child data i = Some c -> In a (elems c) -> In a (elems (Branch m data))).
    { intros i c a Ec Ha. rewrite elems_branch. apply in_flat_map_child. exists i. rewrite Ec. auto. }
    constructor; auto.
    + intros i c Ec. apply (IH i c Ec).
      * intros a Ha. apply HO. eapply Hin; eauto.
      * intros a b Ha Hb. apply HQ; eapply Hin; eauto.
      * intros a seed Ha. apply HH. eapply Hin; eauto.
    + intros i e He. specialize (Hp i e He). unfold digit, newHasher in *. rewrite <- HH; auto.
      rewrite elems_branch. apply in_flat_map_child. eauto.
Qed.

Lemma sok_change (s : set T) : @sok E T K1 ok1 s -> (forall a, In a (sel s) -> ok2 a) ->
  (forall a b, In a (sel s) -> In b (sel s) -> @veq _ K1 a b = @veq _ K2 a b) ->
  (forall a seed, In a (sel s) -> @vhash _ K1 a seed = @vhash _ K2 a seed) -> @sok E T K2 ok2 s.
Proof.
  unfold sok, tok, sel, tel. intros [Hw Hc] HO HQ HH. split; auto. intros n En. rewrite En in *. cbn [elemso] in *.
  apply wf_change; auto.
Qed.

End Change.

(** ** Values *)

(** Integers, and relations with a bound on the depth of their nesting. *)
Inductive val :=
| VInt (z : Z)
| VRel (n : nat) (r : set (gomap Z val)).

#[global] Instance Zval : Zero val := {| zero := VInt 0 |}.

(** How deeply relations are nested in a value. *)
Definition tag (v : val) : nat := match v with VInt _ => O | VRel n _ => n end.
Definition valuesOf (r : set (gomap Z val)) : list val := flat_map (fun t => map e_val (mel t)) (sel r).
Definition bound (r : set (gomap Z val)) : nat := S (list_max (map tag (valuesOf r))).

(** The hash function: relations all have the same hash. *)
Definition vh (v : val) (seed : N) : N :=
  match v with VInt z => wrap 64 (Z.to_N (z mod 5) + seed) | VRel _ _ => wrap 64 (99 + seed) end.

Section Val.
Local Opaque maxTreeDepth fanout fb.
Context {E : Env} {HE : EnvOk E} {KX : Key Z} {kok : Z -> Prop} {KO : KeyOk KX kok}.
Notation tuple := (gomap Z val).
Notation relation := (set (gomap Z val)).

(** Equality of values, correct up to depth [n]. *)
Fixpoint veqF (n : nat) (a b : val) : bool :=
  match a, b with
  | VInt x, VInt y => Z.eqb x y
  | VRel _ r, VRel _ s =>
      match n with
      | O => false
      | S n =>
          match s_equal (K := mapKey (KV := {| veq := veqF n; vhash := vh |})) r s with Ok x => x | _ => false end
      end
  | _, _ => false
  end.
Definition KF (n : nat) : Key val := {| veq := veqF n; vhash := vh |}.

(** Values of depth at most [n] in which every set and map is valid. *)
Fixpoint vokF (n : nat) (v : val) : Prop :=
  match v with
  | VInt _ => True
  | VRel m r =>
      match n with
      | O => False
      | S n => m = bound r /\ sok (K := mapKey (KV := KF n)) (mvok kok (vokF n)) r
      end
  end.

Lemma vh_range v seed : (vh v seed < 2 ^ 64)%N.
Proof. destruct v; apply wrap_lt. Qed.

(** The key of relations at depth [n]. *)
Lemma KF_ok n : KeyOk (KF n) (vokF n).
Proof.
  induction n as [|n IH].
  - constructor; cbn; try (intros; apply vh_range).
    + intros [x|] H; [apply Z.eqb_refl|destruct H].
    + intros [x|] [y|] _ _; auto. rewrite Z.eqb_sym. auto.
    + intros [x|] [y|] [z|] _ _ _; auto; rewrite ?Z.eqb_eq; congruence.
    + intros [x|] [y|] seed _ _; try discriminate. rewrite Z.eqb_eq. congruence.
  - pose proof (mapKeyOk (kok := kok) (valok := vokF n) (KVO := IH) (HE := HE)) as HM.
    pose proof (setKeyOk (K := mapKey (KV := KF n)) (KO := HM) (HE := HE)) as HS.
    constructor; cbn; try (intros; apply vh_range).
    + intros [x|m r]; [intros _; apply Z.eqb_refl|]. intros [_ H]. apply (veq_refl (KeyOk := HS) r H).
    + intros [x|m r] [y|m' r']; auto; [rewrite Z.eqb_sym; auto|]. intros [_ H1] [_ H2]. apply (veq_sym (KeyOk := HS) r r' H1 H2).
    + intros [x|m r] [y|m' r'] [z|m'' r'']; auto; try discriminate; [rewrite ?Z.eqb_eq; congruence|].
      intros [_ H1] [_ H2] [_ H3]. apply (veq_trans (KeyOk := HS) r r' r'' H1 H2 H3).
    + intros [x|] [y|] seed _ _; try discriminate; auto. rewrite Z.eqb_eq. congruence.
Qed.

Lemma bound_in r t e : In t (sel r) -> In e (mel t) -> S (tag (e_val e)) <= bound r.
Proof.
  intros Ht He. unfold bound. apply le_n_S.
  assert (H : Forall (fun k => k <= list_max (map tag (valuesOf r))) (map tag (valuesOf r))) by (apply list_max_le; auto).
  rewrite Forall_forall in H. apply H. apply in_map. unfold valuesOf. apply in_flat_map. exists t. split; auto. apply in_map; auto.
Qed.

(** Two equalities on the values of two tuples give the same equality of the tuples. *)
Lemma tuple_veq (K1 K2 : Key val) (a b : tuple) : mok kok a -> mok kok b ->
  (forall x y, In x (map e_val (mel a)) -> In y (map e_val (mel b)) -> @veq _ K1 x y = @veq _ K2 x y) ->
  @veq _ (mapKey (KV := K1)) a b = @veq _ (mapKey (KV := K2)) a b.
Proof.
  intros Ha Hb H. cbn.
  destruct (m_equal_ok (kok := kok) (KV := K1) a b Ha Hb) as (x & -> & HX).
  destruct (m_equal_ok (kok := kok) (KV := K2) a b Ha Hb) as (y & -> & HY).
  apply eq_true_iff_eq. rewrite HX, HY.
  assert (HI : forall (t : tuple) k v, mget t k = Some v -> In v (map e_val (mel t))).
  { intros t k v Hv. unfold mget in Hv. destruct (klk (mel t) k) as [e|] eqn:Ek; [|discriminate]. injection Hv as <-.
    apply klk_Some in Ek as [He _]. apply in_map; auto. }
  unfold meqv. split; intros HQ k Hk; specialize (HQ k Hk); destruct (mget a k) as [u|] eqn:Eu, (mget b k) as [w|] eqn:Ew; auto;
    [rewrite <- H|rewrite H]; eauto.
Qed.

Lemma seqv_elements {T} {K : Key T} {ok : T -> Prop} {KOk : KeyOk K ok} (r s : set T) : sok ok r -> sok ok s ->
  seqv ok r s <-> (forall a, In a (sel r) -> exists b, In b (sel s) /\ veq b a = true) /\
                  (forall b, In b (sel s) -> exists a, In a (sel r) /\ veq a b = true).
Proof.
  intros Hr Hs.
  assert (HL : forall (l : list T) w, lookup l w <> None <-> exists e, In e l /\ veq e w = true).
  { intros l w. split.
    - destruct (lookup l w) as [e|] eqn:El; [|congruence]. apply lookup_Some in El. eauto.
    - intros (e & He & Hq) Hn. rewrite (proj1 (lookup_None _ _) Hn e He) in Hq. discriminate. }
  assert (Hir : forall a, In a (sel r) -> ok a) by (apply sok_allok; auto).
  assert (His : forall a, In a (sel s) -> ok a) by (apply sok_allok; auto).
  unfold seqv. split.
  - intros H. split.
    + intros a Ha. apply HL, H; auto. apply HL. exists a. split; auto. apply (veq_refl (vok := ok)); auto.
    + intros b Hb. apply HL, H; auto. apply HL. exists b. split; auto. apply (veq_refl (vok := ok)); auto.
  - intros [H1 H2] w Hw. rewrite !HL. split; intros (e & He & Hq).
    + destruct (H1 e He) as (b & Hb & Hqb). exists b. split; auto. apply (veq_trans (vok := ok) b e w); auto.
    + destruct (H2 e He) as (b & Hb & Hqb). exists b. split; auto. apply (veq_trans (vok := ok) b e w); auto.
Qed.

(** The value at another depth. *)
Lemma levels n : forall k,
  (forall v, vokF n v -> tag v <= k -> vokF k v) /\
  (forall a b, vokF n a -> vokF n b -> vokF k a -> vokF k b -> veqF n a b = veqF k a b).
Proof.
  induction n as [|n IH]; intros k.
  { split; [intros [x|m r]; [destruct k; cbn; auto|intros []]|]. intros [x|m r] [y|m' r']; cbn; try tauto. destruct k; cbn; auto. }
  assert (HQ : forall k (r s : relation), sok (K := mapKey (KV := KF n)) (mvok kok (vokF n)) r -> sok (K := mapKey (KV := KF n)) (mvok kok (vokF n)) s ->
     (forall t v, In t (sel r) \/ In t (sel s) -> In v (map e_val (mel t)) -> vokF k v) ->
     forall a b, In a (sel r) \/ In a (sel s) -> In b (sel r) \/ In b (sel s) ->
       @veq _ (mapKey (KV := KF n)) a b = @veq _ (mapKey (KV := KF k)) a b).
  { intros k' r s Hr Hs HV a b Ha Hb.
    assert (Hm : forall t, In t (sel r) \/ In t (sel s) -> mvok kok (vokF n) t).
    { intros t [H|H]; [apply (sok_allok (K := mapKey (KV := KF n)) (vok := mvok kok (vokF n)) r Hr)|apply (sok_allok (K := mapKey (KV := KF n)) (vok := mvok kok (vokF n)) s Hs)]; auto. }
    apply tuple_veq; [apply Hm; auto|apply Hm; auto|]. intros x y Hx Hy. apply (proj2 (IH k')); auto.
    - apply in_map_iff in Hx as (e & <- & He). apply (proj2 (Hm a Ha)); auto.
    - apply in_map_iff in Hy as (e & <- & He). apply (proj2 (Hm b Hb)); auto.
    - apply (HV a); auto.
    - apply (HV b); auto. }
  split.
  - intros [x|m r] Hv Ht; [destruct k; cbn; auto|]. destruct Hv as [Hm Hr]. cbn [tag] in Ht.
    destruct k as [|k]; [unfold bound in Hm; lia|]. cbn [vokF]. split; auto.
    pose proof (sok_allok (K := mapKey (KV := KF n)) (vok := mvok kok (vokF n)) r Hr) as Ho.
    assert (HV : forall t e, In t (sel r) -> In e (mel t) -> vokF k (e_val e)).
    { intros t e Hi He. apply (proj1 (IH k)); [apply (proj2 (Ho t Hi)); auto|]. pose proof (bound_in r t e Hi He). lia. }
    apply (sok_change (mapKey (KV := KF n)) (mapKey (KV := KF k)) (mvok kok (vokF n))); auto.
    + intros t Hi. split; [apply (Ho t Hi)|]. intros e He. eapply HV; eauto.
    + intros a b Ha Hb. apply (HQ k r r Hr Hr); auto. intros t v [Hi|Hi] Hin; apply in_map_iff in Hin as (e & <- & He); eapply HV; eauto.
  - intros [x|m r] [y|m' s] Ha Hb Ha' Hb'; try (destruct k; reflexivity).
    destruct k as [|k]; [destruct Ha'|]. destruct Ha as [_ Hr], Hb as [_ Hs], Ha' as [_ Hr'], Hb' as [_ Hs']. cbn [veqF].
    change {| veq := veqF n; vhash := vh |} with (KF n). change {| veq := veqF k; vhash := vh |} with (KF k).
    pose proof (mapKeyOk (kok := kok) (valok := vokF n) (KVO := KF_ok n) (HE := HE)) as HMn.
    pose proof (mapKeyOk (kok := kok) (valok := vokF k) (KVO := KF_ok k) (HE := HE)) as HMk.
    destruct (s_equal_ok (K := mapKey (KV := KF n)) (vok := mvok kok (vokF n)) r s Hr Hs) as (x & -> & HX).
    destruct (s_equal_ok (K := mapKey (KV := KF k)) (vok := mvok kok (vokF k)) r s Hr' Hs') as (y & -> & HY).
    apply eq_true_iff_eq. rewrite HX, HY.
    rewrite (seqv_elements (K := mapKey (KV := KF n)) r s), (seqv_elements (K := mapKey (KV := KF k)) r s) by auto.
    pose proof (sok_allok (K := mapKey (KV := KF k)) (vok := mvok kok (vokF k)) r Hr') as Hor.
    pose proof (sok_allok (K := mapKey (KV := KF k)) (vok := mvok kok (vokF k)) s Hs') as Hos.
    assert (HT : forall a b, In a (sel r) \/ In a (sel s) -> In b (sel r) \/ In b (sel s) ->
      @veq _ (mapKey (KV := KF n)) a b = @veq _ (mapKey (KV := KF k)) a b).
    { apply (HQ k r s); auto. intros t v [Hi|Hi] Hin; apply in_map_iff in Hin as (e & <- & He); [apply (proj2 (Hor t Hi))|apply (proj2 (Hos t Hi))]; auto. }
    split; intros [H1 H2]; (split; [intros a Hi; destruct (H1 a Hi) as (b & Hb & Hq)|intros a Hi; destruct (H2 a Hi) as (b & Hb & Hq)]);
      exists b; (split; [auto|]); [rewrite <- HT|rewrite <- HT|rewrite HT|rewrite HT]; auto.
Qed.

(** Equality of values. *)
#[local] Instance valKey : Key val := {| veq := fun a b => veqF (max (tag a) (tag b)) a b; vhash := vh |}.
(** Values in which every set and map is valid. *)
Definition valok (v : val) : Prop := vokF (tag v) v.

Lemma vokF_tag n : forall v, vokF n v -> tag v <= n.
Proof.
  induction n as [|n IH]; intros [x|m r] H; cbn [tag]; try lia; [destruct H|].
  destruct H as [-> Hr]. unfold bound. apply le_n_S. apply list_max_le. apply Forall_forall.
  intros k Hk. apply in_map_iff in Hk as (v & <- & Hv). unfold valuesOf in Hv. apply in_flat_map in Hv as (t & Ht & Hv).
  apply in_map_iff in Hv as (e & <- & He). apply IH.
  exact (proj2 (sok_allok (K := mapKey (KV := KF n)) (vok := mvok kok (vokF n)) r Hr t Ht) e He).
Qed.

Lemma valok_level n v : vokF n v <-> valok v /\ tag v <= n.
Proof.
  split.
  - intros H. split; [apply (proj1 (levels n (tag v))); auto|]. apply vokF_tag; auto.
  - intros [H1 H2]. apply (proj1 (levels (tag v) n)); auto.
Qed.

Lemma veq_level n a b : vokF n a -> vokF n b -> veq a b = veqF n a b.
Proof.
  intros Ha Hb. pose proof (proj1 (valok_level n a) Ha) as [Va Ta]. pose proof (proj1 (valok_level n b) Hb) as [Vb Tb]. cbn.
  apply (proj2 (levels (max (tag a) (tag b)) n)); auto; apply valok_level; split; auto; lia.
Qed.

#[local] Instance valKeyOk : KeyOk valKey valok.
Proof.
  assert (HL : forall n v, valok v -> tag v <= n -> vokF n v) by (intros; apply valok_level; auto).
  constructor.
  - intros a Ha. rewrite (veq_level (tag a)) by auto. apply (veq_refl (KeyOk := KF_ok (tag a))); auto.
  - intros a b Ha Hb H. rewrite (veq_level (max (tag a) (tag b))) in * by (apply HL; auto; lia).
    apply (veq_sym (KeyOk := KF_ok (max (tag a) (tag b)))); auto; apply HL; auto; lia.
  - intros a b c Ha Hb Hc H1 H2. set (n := max (tag a) (max (tag b) (tag c))).
    assert (La : vokF n a) by (apply HL; auto; lia). assert (Lb : vokF n b) by (apply HL; auto; lia).
    assert (Lc : vokF n c) by (apply HL; auto; lia). rewrite (veq_level n) in * by auto.
    apply (veq_trans (KeyOk := KF_ok n) a b c); auto.
  - intros a b seed Ha Hb H. set (n := max (tag a) (tag b)).
    assert (La : vokF n a) by (apply HL; auto; lia). assert (Lb : vokF n b) by (apply HL; auto; lia).
    rewrite (veq_level n) in H by auto. apply (vhash_compat (KeyOk := KF_ok n) a b seed); auto.
  - intros a seed _. apply vh_range.
Qed.

(** Relations as values. *)
#[local] Instance valRel : RelVal Z val := {|
  toAny := fun r => VRel (bound r) r;
  fromAny := fun v => match v with VRel n r => if Nat.eqb n (bound r) then Some r else None | _ => None end;
|}.

(** A set of tuples is valid with the equality of values iff it is with the equality of a sufficient depth. *)
Lemma sok_level n (r : relation) : bound r <= S n ->
  sok (K := mapKey (KV := valKey)) (mvok kok valok) r <-> sok (K := mapKey (KV := KF n)) (mvok kok (vokF n)) r.
Proof.
  intros Hb.
  assert (HT : forall t e, In t (sel r) -> In e (mel t) -> valok (e_val e) <-> vokF n (e_val e)).
  { intros t e Ht He. rewrite valok_level. pose proof (bound_in r t e Ht He). intuition lia. }
  assert (HQ : (forall t, In t (sel r) -> mvok kok (vokF n) t) -> forall a b, In a (sel r) -> In b (sel r) ->
    @veq _ (mapKey (KV := valKey)) a b = @veq _ (mapKey (KV := KF n)) a b).
  { intros Ho a b Ha Hb'. apply tuple_veq; [apply (Ho a Ha)|apply (Ho b Hb')|]. intros x y Hx Hy.
    apply in_map_iff in Hx as (e & <- & He). apply in_map_iff in Hy as (e' & <- & He'). apply (veq_level n); [apply (Ho a Ha)|apply (Ho b Hb')]; auto. }
  split; intros Hr.
  - pose proof (sok_allok (K := mapKey (KV := valKey)) (vok := mvok kok valok) r Hr) as Ho.
    assert (Ho' : forall t, In t (sel r) -> mvok kok (vokF n) t).
    { intros t Ht. split; [apply (Ho t Ht)|]. intros e He. apply (HT t e Ht He). apply (Ho t Ht); auto. }
    apply (sok_change (mapKey (KV := valKey)) (mapKey (KV := KF n)) (mvok kok valok)); auto.
  - pose proof (sok_allok (K := mapKey (KV := KF n)) (vok := mvok kok (vokF n)) r Hr) as Ho.
    apply (sok_change (mapKey (KV := KF n)) (mapKey (KV := valKey)) (mvok kok (vokF n))); auto.
    + intros t Ht. split; [apply (Ho t Ht)|]. intros e He. apply (HT t e Ht He). apply (Ho t Ht); auto.
    + intros a b Ha Hb'. symmetry. auto.
Qed.

#[local] Instance valRelOk : RelValOk (kok := kok) (valok := valok).
Proof.
  assert (HA : forall r : relation, sok (K := mapKey (KV := valKey)) (mvok kok valok) r <-> valok (toAny r)).
  { intros r. unfold valok. cbn [toAny valRel tag]. unfold bound at 1. cbn [vokF]. rewrite (sok_level (list_max (map tag (valuesOf r)))) by (unfold bound; lia).
    intuition. }
  constructor; auto.
  - intros r. cbn. rewrite Nat.eqb_refl. auto.
  - intros [x|n r0] r; cbn [fromAny valRel]; [discriminate|]. destruct (Nat.eqb n (bound r0)) eqn:En; [|discriminate].
    intros [= <-]. apply Nat.eqb_eq in En. cbn. congruence.
  - intros r s Hr Hs. set (n := max (bound r) (bound s)).
    rewrite (veq_level (S n)); [|apply valok_level; split; [apply HA; auto|cbn [toAny valRel tag]; lia]..]. cbn [toAny valRel veqF].
    change {| veq := veqF n; vhash := vh |} with (KF n).
    assert (Hr' : sok (K := mapKey (KV := KF n)) (mvok kok (vokF n)) r) by (apply sok_level; auto; lia).
    assert (Hs' : sok (K := mapKey (KV := KF n)) (mvok kok (vokF n)) s) by (apply sok_level; auto; lia).
    pose proof (mapKeyOk (kok := kok) (valok := vokF n) (KVO := KF_ok n) (HE := HE)) as HMn.
    pose proof (mapKeyOk (kok := kok) (valok := valok) (KVO := valKeyOk) (HE := HE)) as HMk.
    destruct (s_equal_ok (K := mapKey (KV := KF n)) (vok := mvok kok (vokF n)) r s Hr' Hs') as (x & -> & HX).
    rewrite HX, (seqv_elements (K := mapKey (KV := KF n)) r s), (seqv_elements (K := mapKey (KV := valKey)) r s) by auto.
    pose proof (sok_allok (K := mapKey (KV := KF n)) (vok := mvok kok (vokF n)) r Hr') as Hor.
    pose proof (sok_allok (K := mapKey (KV := KF n)) (vok := mvok kok (vokF n)) s Hs') as Hos.
    assert (HT : forall a b, In a (sel r) \/ In a (sel s) -> In b (sel r) \/ In b (sel s) ->
      @veq _ (mapKey (KV := KF n)) a b = @veq _ (mapKey (KV := valKey)) a b).
    { assert (Hok : forall t, In t (sel r) \/ In t (sel s) -> mvok kok (vokF n) t) by (intros t [H|H]; auto).
      intros a b Ha Hb. apply tuple_veq; [apply (Hok a Ha)|apply (Hok b Hb)|]. intros u w Hx Hy.
      apply in_map_iff in Hx as (e & <- & He). apply in_map_iff in Hy as (e' & <- & He'). symmetry.
      apply (veq_level n); [apply (Hok a Ha)|apply (Hok b Hb)]; auto. }
    split; intros [H1 H2]; (split; [intros a Hi; destruct (H1 a Hi) as (b & Hb & Hq)|intros a Hi; destruct (H2 a Hi) as (b & Hb & Hq)]);
      exists b; (split; [auto|]); [rewrite <- HT|rewrite <- HT|rewrite HT|rewrite HT]; auto.
Qed.

End Val.
