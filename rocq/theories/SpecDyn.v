(** * SpecDyn: theorems about nested values of mixed types (C49, C50). *)
From Verif Require Import Base Bits Env EnvFacts Node NodeWf Iter Tree TreeFacts SetApi SetFacts MapApi MapFacts GroupFacts RelVal Dyn Reach Spec SpecSet SpecMap.

Section C49.
Local Opaque maxTreeDepth fanout fb.
Context {E : Env} {HE : EnvOk E} {bh : nat -> Z -> N -> N}.

Lemma c49_lawful n T : KeyOk (dynKey bh n T) (sound bh n T).
Proof. apply dynKeyOk. Qed.

Lemma c49_returns n T a b : sound bh n T a -> sound bh n T b -> exists x, dequal bh n T a b = Ok x.
Proof. apply dequal_ok. Qed.

(** Equal at a static type is Equal of the values boxed in an [any]. *)
Lemma c49_static n T a b : sound bh n T a -> sound bh n T b -> sound bh n GAny a /\ dequal bh n T a b = dequal bh n GAny a b.
Proof.
  intros Ha Hb. split; [|apply dequal_any; auto]. destruct n as [|n]; [destruct Ha|]. split; [left; auto|apply Ha].
Qed.

(** The bound on the recursion makes no difference. *)
Lemma c49_depth n m T a b seed : n <= m -> sound bh n T a -> sound bh n T b ->
  sound bh m T a /\ dequal bh m T a b = dequal bh n T a b /\ dhash bh m a seed = dhash bh n a seed.
Proof.
  intros Hm Ha Hb. destruct (levels bh n m Hm) as (H1 & H2 & H3). split; auto. split; symmetry; eauto.
Qed.

(** What the API builds from values is a value again. *)
Lemma c49_set n t s : SetReach (K := dynKey bh n t) (sound bh n t) s ->
  sound bh (S n) (GSet t) (DSet t s) /\ sound bh (S n) GAny (DSet t s).
Proof.
  intros H. pose proof (sreach_ok (KO := dynKeyOk bh n t) s H) as Hs. split; (split; [|exact Hs]); [right|left]; auto.
Qed.

Lemma c49_map n k v m : MapReach (KX := dynKey bh n k) (sound bh n k) (sound bh n v) m ->
  sound bh (S n) (GMap k v) (DMap k v m) /\ sound bh (S n) GAny (DMap k v m).
Proof.
  intros H. pose proof (mreach_ok (KO := dynKeyOk bh n k) m H) as H1. pose proof (mreach_vals (KO := dynKeyOk bh n k) m H) as H2.
  split; (split; [|split; auto]); [right|left]; auto.
Qed.

Lemma c49_kv n k v a b : sound bh n k a -> sound bh n v b ->
  sound bh (S n) (GKV k v) (DKV k v (mkKV a b)) /\ sound bh (S n) GAny (DKV k v (mkKV a b)).
Proof. intros Ha Hb. split; (split; [|split; auto]); [right|left]; auto. Qed.

(** Two nested sets are Equal iff they have the same type and the same members. *)
Lemma c49_setEqual n t u s r : SetReach (K := dynKey bh n t) (sound bh n t) s -> SetReach (K := dynKey bh n u) (sound bh n u) r ->
  dequal bh (S n) GAny (DSet t s) (DSet u r) = Ok true <->
  t = u /\ (forall v, sound bh n t v -> Has (K := dynKey bh n t) s v <-> Has (K := dynKey bh n t) r v).
Proof.
  intros Hs Hr. destruct (c49_set n t s Hs) as [_ Hs']. destruct (c49_set n u r Hr) as [_ Hr'].
  rewrite (dequal_dq bh n (dynKeyOk bh n) GAny _ _ Hs' Hr'). cbn [dq]. split.
  - intros [= H]. apply andb_true_iff in H as [H1 H2]. apply gty_eqb_eq in H1 as <-. split; auto.
    destruct (c05_equal (KO := dynKeyOk bh n t) s r Hs Hr) as (x & Hx & HX). cbn in H2. rewrite Hx in H2. subst x. apply HX. auto.
  - intros [<- H]. rewrite gty_eqb_refl. cbn [andb]. f_equal.
    destruct (c05_equal (KO := dynKeyOk bh n t) s r Hs Hr) as (x & Hx & HX). cbn. rewrite Hx. apply HX. exact H.
Qed.

Lemma c49_mapEqual n k v k2 v2 m r : MapReach (KX := dynKey bh n k) (sound bh n k) (sound bh n v) m ->
  MapReach (KX := dynKey bh n k2) (sound bh n k2) (sound bh n v2) r ->
  dequal bh (S n) GAny (DMap k v m) (DMap k2 v2 r) = Ok true <->
  k = k2 /\ v = v2 /\ (forall x, sound bh n k x ->
    match m_get (KX := dynKey bh n k) m x, m_get (KX := dynKey bh n k) r x with
    | Ok (Some a), Ok (Some b) => dequal bh n v a b = Ok true
    | Ok None, Ok None => True
    | _, _ => False
    end).
Proof.
  intros Hm Hr. destruct (c49_map n k v m Hm) as [_ Hm']. destruct (c49_map n k2 v2 r Hr) as [_ Hr'].
  rewrite (dequal_dq bh n (dynKeyOk bh n) GAny _ _ Hm' Hr'). cbn [dq].
  assert (HH : k = k2 -> v = v2 -> @veq _ (mapKey (KX := dynKey bh n k) (KV := dynKey bh n v)) m r = true <->
    (forall x, sound bh n k x ->
    match m_get (KX := dynKey bh n k) m x, m_get (KX := dynKey bh n k) r x with
    | Ok (Some a), Ok (Some b) => dequal bh n v a b = Ok true
    | Ok None, Ok None => True
    | _, _ => False
    end)).
  { intros <- <-. destruct Hm' as [_ [M1 M2]], Hr' as [_ [R1 R2]].
    destruct (m_equal_ok (KX := dynKey bh n k) (KO := dynKeyOk bh n k) (KV := dynKey bh n v) m r M1 R1) as (x & Hx & HX).
    cbn. rewrite Hx, HX. unfold meqv. split; intros H y Hy; specialize (H y Hy);
      rewrite (m_get_ok (KX := dynKey bh n k) (KO := dynKeyOk bh n k) m y M1 Hy), (m_get_ok (KX := dynKey bh n k) (KO := dynKeyOk bh n k) r y R1 Hy) in *.
    - destruct (mget m y) as [a|] eqn:Ea, (mget r y) as [b|] eqn:Eb; auto. cbn in H.
      destruct (dequal_ok bh n v a b) as (z & Hz); [| |rewrite Hz in *; cbn in H; congruence].
      + apply (mget_ok (KX := dynKey bh n k) (kok := sound bh n k) (valok := sound bh n v) m y); [split|]; auto.
      + apply (mget_ok (KX := dynKey bh n k) (kok := sound bh n k) (valok := sound bh n v) r y); [split|]; auto.
    - destruct (mget m y) as [a|] eqn:Ea, (mget r y) as [b|] eqn:Eb; auto. cbn. rewrite H. auto. }
  split.
  - intros [= H]. apply andb_true_iff in H as [H1 H2]. apply andb_true_iff in H1 as [H0 H1].
    apply gty_eqb_eq in H0. apply gty_eqb_eq in H1. split; auto. split; auto. apply HH; auto.
  - intros (H0 & H1 & H). f_equal. apply andb_true_iff. split; [|apply HH; auto]. apply andb_true_iff. rewrite !gty_eqb_eq. auto.
Qed.

(** EqualFuncFor answers like Equal, for every type with [==] or an Equal method. *)
Lemma c50_funcFor n T : (forall k, T <> GSlice k) ->
  exists f, equalFuncFor bh n T = Ok f /\ forall a b, sound bh n T a -> sound bh n T b -> f a b = dequal bh n T a b.
Proof.
  intros HT. destruct T as [k|k| |t|k v|k v]; cbn [equalFuncFor].
  2: destruct (HT k eq_refl).
  2-5: eexists; split; [reflexivity|auto]; fail.
  eexists. split; [reflexivity|]. destruct n as [|n]; [intros ? ? []|]. intros a b [Ha Ha'] [Hb Hb']. reflexivity.
Qed.

End C49.
