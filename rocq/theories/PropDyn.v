(** * PropDyn: nested values of mixed types (C49, C50).

    Generated by tools/genprops.py from SpecDyn.v and tools/examples/PropDyn.txt.
    Every theorem is followed by a case that meets its hypotheses. *)
From Verif Require Import Base Bits Env EnvFacts Node Iter Tree SetApi MapApi Dyn Reach Spec SpecDyn ExampleData.

(** Basic types 0 (int, say) and 1 (string), with few hashes. *)
Definition bh0 (k : nat) (z : Z) (seed : N) : N := (Z.to_N (z mod 3) + 5 * seed + 1)%N.
Notation K1 := (dynKey bh0 1 GAny).
Notation K2 := (dynKey bh0 2 GAny).
Notation K3 := (dynKey bh0 3 GAny).
Notation i x := (DBasic 0 x%Z).
Notation str x := (DBasic 1 x%Z).
Lemma basic n k z : sound bh0 (S n) GAny (DBasic k z).
Proof. split; [left; reflexivity|exact Logic.I]. Qed.
Ltac basics := let v := fresh in let H := fresh in intros v H; cbn [In] in H; repeat (destruct H as [<-|H]; [apply basic|]); destruct H.

(** Depth 1: sets and a map of basic values. *)
Definition s1 : set dyn := Eval vm_compute in okOr s_empty (s_new (K := K1) [i 1; str 1; i 2; i 4; i 7; i 3]).
Definition s1' : set dyn := Eval vm_compute in okOr s_empty (s_new (K := K1) [i 7; i 4; i 3; i 2; str 1; i 1; i 7]).
Definition s1b : set dyn := Eval vm_compute in okOr s_empty (s_new (K := K1) [i 7; i 4; i 3; i 2; str 2; i 1]).
Lemma s1_reach : SetReach (K := K1) (sound bh0 1 GAny) s1.
Proof. apply (sr_new _ _ _ [i 1; str 1; i 2; i 4; i 7; i 3]); [basics|vm_compute; reflexivity]. Qed.
Lemma s1'_reach : SetReach (K := K1) (sound bh0 1 GAny) s1'.
Proof. apply (sr_new _ _ _ [i 7; i 4; i 3; i 2; str 1; i 1; i 7]); [basics|vm_compute; reflexivity]. Qed.
Lemma s1b_reach : SetReach (K := K1) (sound bh0 1 GAny) s1b.
Proof. apply (sr_new _ _ _ [i 7; i 4; i 3; i 2; str 2; i 1]); [basics|vm_compute; reflexivity]. Qed.
Definition m0 : gomap dyn dyn := Eval vm_compute in okOr m_empty (m_with (KX := K1) m_empty (i 1) (str 1)).
Definition m1 : gomap dyn dyn := Eval vm_compute in okOr m_empty (m_with (KX := K1) m0 (i 4) (str 2)).
Definition m0' : gomap dyn dyn := Eval vm_compute in okOr m_empty (m_with (KX := K1) m_empty (i 4) (str 2)).
Definition m1' : gomap dyn dyn := Eval vm_compute in okOr m_empty (m_with (KX := K1) m0' (i 1) (str 1)).
Lemma m1_reach : MapReach (KX := K1) (sound bh0 1 GAny) (sound bh0 1 GAny) m1.
Proof.
  apply (mr_with _ _ K1 _ _ _ m0 (i 4) (str 2)); [|apply basic|apply basic|vm_compute; reflexivity].
  apply (mr_with _ _ K1 _ _ _ m_empty (i 1) (str 1)); [apply mr_empty|apply basic|apply basic|vm_compute; reflexivity].
Qed.
Lemma m1'_reach : MapReach (KX := K1) (sound bh0 1 GAny) (sound bh0 1 GAny) m1'.
Proof.
  apply (mr_with _ _ K1 _ _ _ m0' (i 1) (str 1)); [|apply basic|apply basic|vm_compute; reflexivity].
  apply (mr_with _ _ K1 _ _ _ m_empty (i 4) (str 2)); [apply mr_empty|apply basic|apply basic|vm_compute; reflexivity].
Qed.

(** Depth 2: sets of any that hold a set, a map, a pair and integers. *)
Definition l2 : list dyn := [DSet GAny s1; i 1; DMap GAny GAny m1; DKV GAny GAny (mkKV (i 1) (str 2)); DSet (GBasic 0) s_empty].
Definition l2' : list dyn := [i 1; DKV GAny GAny (mkKV (i 1) (str 2)); DMap GAny GAny m1'; DSet (GBasic 0) s_empty; DSet GAny s1'; DSet GAny s1].
Lemma l2_sound v : In v l2 -> sound bh0 2 GAny v.
Proof.
  unfold l2. cbn [In]. intros [<-|[<-|[<-|[<-|[<-|[]]]]]].
  - apply c49_set. exact s1_reach.
  - apply basic.
  - apply c49_map. exact m1_reach.
  - apply c49_kv; apply basic.
  - apply (c49_set (bh := bh0) 1 (GBasic 0) s_empty). apply sr_empty.
Qed.
Lemma l2'_sound v : In v l2' -> sound bh0 2 GAny v.
Proof.
  unfold l2'. cbn [In]. intros [<-|[<-|[<-|[<-|[<-|[<-|[]]]]]]].
  - apply basic.
  - apply c49_kv; apply basic.
  - apply c49_map. exact m1'_reach.
  - apply (c49_set (bh := bh0) 1 (GBasic 0) s_empty). apply sr_empty.
  - apply c49_set. exact s1'_reach.
  - apply c49_set. exact s1_reach.
Qed.
Definition s2 : set dyn := Eval vm_compute in okOr s_empty (s_new (K := K2) l2).
Definition s2' : set dyn := Eval vm_compute in okOr s_empty (s_new (K := K2) l2').
Lemma s2_reach : SetReach (K := K2) (sound bh0 2 GAny) s2.
Proof. apply (sr_new _ _ _ l2); [apply l2_sound|vm_compute; reflexivity]. Qed.
Lemma s2'_reach : SetReach (K := K2) (sound bh0 2 GAny) s2'.
Proof. apply (sr_new _ _ _ l2'); [apply l2'_sound|vm_compute; reflexivity]. Qed.
Definition v2 : dyn := DSet GAny s2.
Definition v2' : dyn := DSet GAny s2'.
Lemma v2_sound : sound bh0 3 GAny v2. Proof. apply c49_set. exact s2_reach. Qed.
Lemma v2'_sound : sound bh0 3 GAny v2'. Proof. apply c49_set. exact s2'_reach. Qed.

Theorem C49_lawful : forall {E : Env} {HE : EnvOk E} {bh : nat -> Z -> N -> N}
    n T,
  KeyOk (dynKey bh n T) (sound bh n T).
Proof. exact @c49_lawful. Qed.
Print Assumptions C49_lawful.
Example C49_lawful_case : dequal bh0 3 GAny v2 v2' = Ok true /\ dhash bh0 3 v2 9 = dhash bh0 3 v2' 9.
Proof.
  assert (H : dequal bh0 3 GAny v2 v2' = Ok true) by (vm_compute; reflexivity). split; [exact H|].
  apply (vhash_compat (KeyOk := C49_lawful (bh := bh0) 3 GAny) v2 v2' 9); [exact v2_sound|exact v2'_sound|]. cbn [veq dynKey]. rewrite H. reflexivity.
Qed.
Example C49_lawful_run : s_count s2 = 5%Z /\ s_count s2' = 5%Z /\ s_has (K := K2) s2 (DSet GAny s1') = Ok true /\
  s_has (K := K2) s2 (DSet GAny s1b) = Ok false /\ s_has (K := K2) s2 (DSet (GBasic 1) s_empty) = Ok false.
Proof. vm_compute. auto. Qed.

Theorem C49_returns : forall {E : Env} {HE : EnvOk E} {bh : nat -> Z -> N -> N}
    n T a b,
  sound bh n T a -> sound bh n T b -> exists x, dequal bh n T a b = Ok x.
Proof. exact @c49_returns. Qed.
Print Assumptions C49_returns.
Example C49_returns_case := C49_returns 3 GAny v2 v2' v2_sound v2'_sound.

Theorem C49_static : forall {E : Env} {HE : EnvOk E} {bh : nat -> Z -> N -> N}
    n T a b,
  sound bh n T a -> sound bh n T b -> sound bh n GAny a /\ dequal bh n T a b = dequal bh n GAny a b.
Proof. exact @c49_static. Qed.
Print Assumptions C49_static.
Example C49_static_case := C49_static 3 (GSet GAny) v2 v2' (proj1 (c49_set 2 GAny s2 s2_reach)) (proj1 (c49_set 2 GAny s2' s2'_reach)).

Theorem C49_depth : forall {E : Env} {HE : EnvOk E} {bh : nat -> Z -> N -> N}
    n m T a b seed,
  n <= m -> sound bh n T a -> sound bh n T b ->
  sound bh m T a /\ dequal bh m T a b = dequal bh n T a b /\ dhash bh m a seed = dhash bh n a seed.
Proof. exact @c49_depth. Qed.
Print Assumptions C49_depth.
Example C49_depth_case := C49_depth 3 7 GAny v2 v2' 5 ltac:(repeat constructor) v2_sound v2'_sound.

Theorem C49_set : forall {E : Env} {HE : EnvOk E} {bh : nat -> Z -> N -> N}
    n t s,
  SetReach (K := dynKey bh n t) (sound bh n t) s ->
  sound bh (S n) (GSet t) (DSet t s) /\ sound bh (S n) GAny (DSet t s).
Proof. exact @c49_set. Qed.
Print Assumptions C49_set.
Example C49_set_case := C49_set 2 GAny s2 s2_reach.

Theorem C49_map : forall {E : Env} {HE : EnvOk E} {bh : nat -> Z -> N -> N}
    n k v m,
  MapReach (KX := dynKey bh n k) (sound bh n k) (sound bh n v) m ->
  sound bh (S n) (GMap k v) (DMap k v m) /\ sound bh (S n) GAny (DMap k v m).
Proof. exact @c49_map. Qed.
Print Assumptions C49_map.
Example C49_map_case := C49_map 1 GAny GAny m1 m1_reach.

Theorem C49_kv : forall {E : Env} {bh : nat -> Z -> N -> N}
    n k v a b,
  sound bh n k a -> sound bh n v b ->
  sound bh (S n) (GKV k v) (DKV k v (mkKV a b)) /\ sound bh (S n) GAny (DKV k v (mkKV a b)).
Proof. exact @c49_kv. Qed.
Print Assumptions C49_kv.
Example C49_kv_case := C49_kv 3 GAny GAny v2 v2' v2_sound v2'_sound.

Theorem C49_setEqual : forall {E : Env} {HE : EnvOk E} {bh : nat -> Z -> N -> N}
    n t u s r,
  SetReach (K := dynKey bh n t) (sound bh n t) s -> SetReach (K := dynKey bh n u) (sound bh n u) r ->
  dequal bh (S n) GAny (DSet t s) (DSet u r) = Ok true <->
  t = u /\ (forall v, sound bh n t v -> Has (K := dynKey bh n t) s v <-> Has (K := dynKey bh n t) r v).
Proof. exact @c49_setEqual. Qed.
Print Assumptions C49_setEqual.
Example C49_setEqual_case := C49_setEqual 2 GAny GAny s2 s2' s2_reach s2'_reach.
Example C49_setEqual_run : dequal bh0 3 GAny v2 v2' = Ok true /\ dequal bh0 3 GAny v2 (i 1) = Ok false /\
  dequal bh0 2 GAny (DSet GAny s1) (DSet GAny s1b) = Ok false /\ dequal bh0 2 GAny (DSet GAny s_empty) (DSet (GBasic 0) s_empty) = Ok false.
Proof. vm_compute. auto. Qed.

Theorem C49_mapEqual : forall {E : Env} {HE : EnvOk E} {bh : nat -> Z -> N -> N}
    n k v k2 v2 m r,
  MapReach (KX := dynKey bh n k) (sound bh n k) (sound bh n v) m ->
  MapReach (KX := dynKey bh n k2) (sound bh n k2) (sound bh n v2) r ->
  dequal bh (S n) GAny (DMap k v m) (DMap k2 v2 r) = Ok true <->
  k = k2 /\ v = v2 /\ (forall x, sound bh n k x ->
    match m_get (KX := dynKey bh n k) m x, m_get (KX := dynKey bh n k) r x with
    | Ok (Some a), Ok (Some b) => dequal bh n v a b = Ok true
    | Ok None, Ok None => True
    | _, _ => False
    end).
Proof. exact @c49_mapEqual. Qed.
Print Assumptions C49_mapEqual.
Example C49_mapEqual_case := C49_mapEqual 1 GAny GAny GAny GAny m1 m1' m1_reach m1'_reach.
Example C49_mapEqual_run : dequal bh0 2 GAny (DMap GAny GAny m1) (DMap GAny GAny m1') = Ok true /\
  dequal bh0 2 GAny (DMap GAny GAny m1) (DMap GAny GAny m0) = Ok false.
Proof. vm_compute. auto. Qed.

Theorem C50_funcFor_partial : forall {E : Env} {bh : nat -> Z -> N -> N}
    n T,
  (forall k, T <> GSlice k) ->
  exists f, equalFuncFor bh n T = Ok f /\ forall a b, sound bh n T a -> sound bh n T b -> f a b = dequal bh n T a b.
Proof. exact @c50_funcFor. Qed.
Print Assumptions C50_funcFor_partial.
Example C50_funcFor_case := C50_funcFor_partial (bh := bh0) 3 (GSet GAny) ltac:(discriminate).
Example C50_funcFor_run : exists f, equalFuncFor bh0 3 GAny = Ok f /\ f v2 v2' = Ok true /\ f v2 (i 1) = Ok false /\
  exists g, equalFuncFor bh0 3 (GBasic 0) = Ok g /\ g (i 1) (i 1) = Ok true /\ g (i 1) (i 2) = Ok false.
Proof. exists (dequal bh0 3 GAny). repeat split. exists goEq. repeat split. Qed.

(** For a type without [==], []int say, EqualFuncFor panics. *)
Theorem C50_refuted : ~ (forall n T, exists f, equalFuncFor bh0 n T = Ok f).
Proof. intros H. destruct (H 3%nat (GSlice 0)) as (f & Hf). discriminate. Qed.
Print Assumptions C50_refuted.
(** Equal does return for values of two different types without [==]; it panics for two values of one such type. *)
Example equal_uncomparable : dequal bh0 3 GAny (DSlice 0) (DSlice 1) = Ok false /\ dequal bh0 3 GAny (DSlice 0) (DSlice 0) = Panic.
Proof. vm_compute. auto. Qed.
