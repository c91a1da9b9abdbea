(** * ExampleData: concrete environments, keys, sets and maps for the examples beside the theorems. *)
From Verif Require Import Base Bits Env EnvFacts Node Iter Tree SetApi GoHeap Ordered MapApi Reach Spec ExtraFacts.
Local Open Scope Z_scope.

(** The default build; a limit so low that every set is processed in parallel; goroutines finish in
    the reverse of the order in which they were started. *)
#[global] Instance E0 : Env := {|
  env_build := branch8;
  env_maxConcurrency := -100;
  env_maxDepth := 30;
  env_sched := fun _ l => rev l;
  env_uintptr := fun v seed => wrap 64 (v * 0x9E3779B97F4A7C15 + seed);
|}.
#[global] Instance E0_ok : EnvOk E0.
Proof. intros path l. cbn. symmetry. apply Permutation_rev. Qed.

(** The same with a fan-out of 4 and no parallelism. *)
Definition E4 : Env := {|
  env_build := branch4;
  env_maxConcurrency := 100;
  env_maxDepth := 0;
  env_sched := fun _ l => l;
  env_uintptr := fun v seed => wrap 64 (v * 31 + seed);
|}.
Lemma E4_ok : EnvOk E4.
Proof. intros path l. cbn. apply Permutation_refl. Qed.

(** Integers that are equal when they agree modulo 100 (so that equal values can be told apart), with
    only four different hashes. *)
#[global] Instance K0 : Key Z := {|
  veq := fun a b => a mod 100 =? b mod 100;
  vhash := fun a seed => wrap 64 (Z.to_N (a mod 4) + seed);
|}.
Definition anyZ : Z -> Prop := fun _ => True.
#[global] Instance K0_ok : KeyOk K0 anyZ.
Proof.
  constructor; cbn; intros.
  - apply Z.eqb_refl.
  - rewrite Z.eqb_sym. auto.
  - apply Z.eqb_eq. rewrite Z.eqb_eq in *. congruence.
  - rewrite Z.eqb_eq in *. f_equal. f_equal. f_equal.
    assert (forall x, x mod 4 = (x mod 100) mod 4) as Hm.
    { intros x. pose proof (Z.div_mod x 100 ltac:(lia)) as Hx.
      rewrite Hx at 1. replace (100 * (x / 100) + x mod 100) with (x mod 100 + (25 * (x / 100)) * 4) by lia.
      apply Z.mod_add. lia. }
    rewrite (Hm a), (Hm b). congruence.
  - apply wrap_lt.
Qed.
#[global] Instance Z0 : Zero Z := {| zero := 0 |}.

Definition okOr {A} (d : A) (r : res A) : A := match r with Ok a => a | _ => d end.

(** 1, 5 and 9 share their hash: they are in a bucket on the last level. *)
Definition lA : list Z := [1; 2; 3; 5; 9].
Definition sA : set Z := Eval vm_compute in okOr s_empty (s_new lA).
Lemma sA_new : s_new lA = Ok sA. Proof. vm_compute. reflexivity. Qed.
Lemma sA_reach : SetReach anyZ sA.
Proof. apply (sr_new _ _ _ lA); [|apply sA_new]. intros v _. exact I. Qed.

Definition lB : list Z := [102; 203; 6; 4].
Definition sB : set Z := Eval vm_compute in okOr s_empty (s_new lB).
Lemma sB_new : s_new lB = Ok sB. Proof. vm_compute. reflexivity. Qed.
Lemma sB_reach : SetReach anyZ sB.
Proof. apply (sr_new _ _ _ lB); [|apply sB_new]. intros v _. exact I. Qed.

(** [sA] again, from a different history: other representatives, other order, a removal. *)
Definition sA' : set Z := Eval vm_compute in
  okOr s_empty (s <- s_new [13; 309; 5; 103] ;; s <- s_with s 1 ;; s <- s_without s 113 ;; s_with s 2).
Lemma sA'_reach : SetReach anyZ sA'.
Proof.
  eapply (sr_with _ _ _ _ 2); [|exact I|].
  - eapply (sr_without _ _ _ _ 113); [|exact I|].
    + eapply (sr_with _ _ _ _ 1); [|exact I|].
      * eapply (sr_new _ _ _ [13; 309; 5; 103]); [intros; exact I|]. vm_compute. reflexivity.
      * vm_compute. reflexivity.
    + vm_compute. reflexivity.
  - vm_compute. reflexivity.
Qed.

(** Shares a hash with the bucket of [sA] and has three elements of that hash. *)
Definition sC : set Z := Eval vm_compute in okOr s_empty (s_new [13; 17; 21]).
Lemma sC_reach : SetReach anyZ sC.
Proof. apply (sr_new _ _ _ [13; 17; 21]); [intros v _; exact I|]. vm_compute. reflexivity. Qed.

(** Two elements of that hash. *)
Definition sD : set Z := Eval vm_compute in okOr s_empty (s_new [13; 101]).
Lemma sD_reach : SetReach anyZ sD.
Proof. apply (sr_new _ _ _ [13; 101]); [intros v _; exact I|]. vm_compute. reflexivity. Qed.

Definition sAB : set Z := Eval vm_compute in okOr s_empty (s_union sA sB).
Lemma sAB_union : s_union sA sB = Ok sAB. Proof. vm_compute. reflexivity. Qed.
Lemma sAB_reach : SetReach anyZ sAB.
Proof. exact (sr_union _ _ _ _ _ _ sA_reach sB_reach sAB_union). Qed.

(** Maps *)
Definition kvsA : list (keyValue Z Z) := [mkKV 1 10; mkKV 2 20; mkKV 5 50; mkKV 9 90; mkKV 102 22].
Definition mA : gomap Z Z := Eval vm_compute in okOr m_empty (m_new kvsA).
Lemma mA_new : m_new kvsA = Ok mA. Proof. vm_compute. reflexivity. Qed.
Lemma mA_reach : MapReach anyZ anyZ mA.
Proof. apply (mr_new _ _ _ _ _ _ kvsA); [|apply mA_new]. intros kv _. split; exact I. Qed.

Definition kvsB : list (keyValue Z Z) := [mkKV 2 200; mkKV 6 60; mkKV 7 70].
Definition mB : gomap Z Z := Eval vm_compute in okOr m_empty (m_new kvsB).
Lemma mB_new : m_new kvsB = Ok mB. Proof. vm_compute. reflexivity. Qed.
Lemma mB_reach : MapReach anyZ anyZ mB.
Proof. apply (mr_new _ _ _ _ _ _ kvsB); [|apply mB_new]. intros kv _. split; exact I. Qed.

Definition pairsOf (kvs : list (keyValue Z Z)) : list (Z * Z) := map (fun kv => (kv_key kv, kv_val kv)) kvs.

(** A strict weak order on [anyZ]. *)
Definition lessZ : Z -> Z -> bool := fun a b => a mod 100 <? b mod 100.
Lemma lessZ_ok : StrictWeak anyZ lessZ.
Proof.
  unfold lessZ. constructor; intros.
  - apply Z.ltb_irrefl.
  - rewrite Z.ltb_lt in *. lia.
  - rewrite !Z.ltb_lt in *. lia.
Qed.

(** The elements of [sA] in the order of the iterator. *)
Definition elA : list Z := Eval vm_compute in okOr [] (s_elements sA).
Lemma sA_elements : s_elements sA = Ok elA. Proof. vm_compute. reflexivity. Qed.
Definition elB : list Z := Eval vm_compute in okOr [] (s_elements sB).
Lemma sB_elements : s_elements sB = Ok elB. Proof. vm_compute. reflexivity. Qed.
Definition elC : list Z := Eval vm_compute in okOr [] (s_elements sC).
Lemma sC_elements : s_elements sC = Ok elC. Proof. vm_compute. reflexivity. Qed.

Definition sXor : set Z := Eval vm_compute in okOr s_empty (s_symmetricDifference sA sB).
Lemma sXor_ok : s_symmetricDifference sA sB = Ok sXor. Proof. vm_compute. reflexivity. Qed.

(** Merging and updating. *)
Definition mMerge : gomap Z Z := Eval vm_compute in okOr m_empty (m_merge mA mB (fun _ a b => a - b)).
Lemma mMerge_ok : m_merge mA mB (fun _ a b => a - b) = Ok mMerge. Proof. vm_compute. reflexivity. Qed.
Definition mUpd : gomap Z Z := Eval vm_compute in okOr m_empty (m_update mA mB).
Lemma mUpd_ok : m_update mA mB = Ok mUpd. Proof. vm_compute. reflexivity. Qed.
(** [mA] from another history. *)
Definition mA' : gomap Z Z := Eval vm_compute in
  okOr m_empty (m <- m_new [mkKV 9 90; mkKV 4 4; mkKV 5 50; mkKV 2 22] ;; m <- m_with m 101 10 ;; m_without m 4).
Lemma mA'_reach : MapReach anyZ anyZ mA'.
Proof.
  eapply (mr_without _ _ _ _ _ _ _ 4); [|exact I|].
  - eapply (mr_with _ _ _ _ _ _ _ 101 10); [|exact I|exact I|].
    + apply (mr_new _ _ _ _ _ _ [mkKV 9 90; mkKV 4 4; mkKV 5 50; mkKV 2 22]); [intros; split; exact I|]. vm_compute. reflexivity.
    + vm_compute. reflexivity.
  - vm_compute. reflexivity.
Qed.
(** Three keys that share their hash with three keys of [mA]. *)
Definition mC : gomap Z Z := Eval vm_compute in okOr m_empty (m_new [mkKV 13 1; mkKV 17 2; mkKV 21 3]).
Lemma mC_reach : MapReach anyZ anyZ mC.
Proof. apply (mr_new _ _ _ _ _ _ [mkKV 13 1; mkKV 17 2; mkKV 21 3]); [intros; split; exact I|]. vm_compute. reflexivity. Qed.
