(** * PropPanic: when Union, Merge and Update panic (C19).

    Generated by tools/genprops.py from SpecSet.v, SpecMap.v and tools/examples/PropPanic.txt.
    Every theorem is followed by a case that meets its hypotheses. *)
From Verif Require Import Base Bits Env EnvFacts Node Iter Tree SetApi GoHeap Ordered MapApi GroupFacts Reach Spec SpecSet SpecMap ExampleData.

Theorem C19_union_exact_partial : forall {E : Env} {HE : EnvOk E} {T : Type} {K : Key T} {vok : T -> Prop} {KO : KeyOk K vok}
    s t ls lt,
  SetReach vok s -> SetReach vok t -> s_elements s = Ok ls -> s_elements t = Ok lt ->
  (Overfull ls lt /\ s_union s t = Panic) \/ (~ Overfull ls lt /\ exists r, s_union s t = Ok r).
Proof. exact @c19_union_exact. Qed.
Print Assumptions C19_union_exact_partial.
Example C19_union_exact_case := C19_union_exact_partial sA sB elA elB sA_reach sB_reach sA_elements sB_elements.

Theorem C19_no_triples_partial : forall {E : Env} {HE : EnvOk E} {T : Type} {K : Key T} {vok : T -> Prop} {KO : KeyOk K vok}
    s t ls lt,
  SetReach vok s -> SetReach vok t -> s_elements s = Ok ls -> s_elements t = Ok lt ->
  (forall h, number (fun e => N.eqb (vhash e 0) h) ls <= 2) ->
  (forall h, number (fun e => N.eqb (vhash e 0) h) lt <= 2) ->
  exists r, s_union s t = Ok r.
Proof. exact @c19_no_triples. Qed.
Print Assumptions C19_no_triples_partial.
(** No three elements of [sB] share a hash. *)
Example C19_no_triples_case : exists r, s_union sB sB = Ok r.
Proof.
  apply (C19_no_triples_partial (vok := anyZ) sB sB elB elB sB_reach sB_reach sB_elements sB_elements);
    intros h; unfold elB, number; cbn [filter vhash K0];
    repeat match goal with |- context [N.eqb ?x h] => destruct (N.eqb_spec x h) as [|_] end;
    cbn [length]; try lia; exfalso;
    repeat match goal with H : _ = h |- _ => vm_compute in H; revert H end; intros; congruence.
Qed.

Theorem C19_triples : forall {E : Env} {HE : EnvOk E} {T : Type} {K : Key T} {vok : T -> Prop} {KO : KeyOk K vok}
    s t ls lt h,
  SetReach vok s -> SetReach vok t -> s_elements s = Ok ls -> s_elements t = Ok lt ->
  3 <= number (fun e => N.eqb (vhash e 0) h) ls ->
  3 <= number (fun e => N.eqb (vhash e 0) h) lt ->
  s_union s t = Panic.
Proof. exact @c19_triples. Qed.
Print Assumptions C19_triples.
Example C19_triples_case : s_union sA sC = Panic.
Proof.
  apply (C19_triples (vok := anyZ) sA sC elA elC 1%N sA_reach sC_reach sA_elements sC_elements);
    apply Nat.leb_le; vm_compute; reflexivity.
Qed.

Theorem C19_merge_exact_partial : forall {E : Env} {HE : EnvOk E} {X : Type} {V : Type} {KX : Key X} {kok : X -> Prop} {KO : KeyOk KX kok} {ZV : Zero V} {valok : V -> Prop}
    m n resolve lm ln,
  MapReach kok valok m -> MapReach kok valok n ->
  m_entries m = Ok lm -> m_entries n = Ok ln ->
  (Overfull (map fst lm) (map fst ln) /\ m_merge m n resolve = Panic /\ m_update m n = Panic) \/
  (~ Overfull (map fst lm) (map fst ln) /\ (exists r, m_merge m n resolve = Ok r) /\ (exists r, m_update m n = Ok r)).
Proof. exact @c19_merge_exact. Qed.
Print Assumptions C19_merge_exact_partial.
Example C19_merge_exact_case := C19_merge_exact_partial mA mC (fun _ a _ => a) _ _ mA_reach mC_reach
  ltac:(vm_compute; reflexivity) ltac:(vm_compute; reflexivity).

(** The full property, that Union returns for all reachable operands, is false: *)
Theorem C19_union_refuted :
  ~ (forall (E : Env) (HE : EnvOk E) (T : Type) (K : Key T) (vok : T -> Prop) (KO : KeyOk K vok) s t,
       SetReach vok s -> SetReach vok t -> exists r, s_union s t = Ok r).
Proof.
  intros H. destruct (H E0 E0_ok Z K0 anyZ K0_ok sA sC sA_reach sC_reach) as (r & Hr).
  rewrite C19_triples_case in Hr. discriminate.
Qed.
Print Assumptions C19_union_refuted.

(** Even the union of a set with itself panics. *)
Theorem C19_self_union_refuted :
  ~ (forall (E : Env) (HE : EnvOk E) (T : Type) (K : Key T) (vok : T -> Prop) (KO : KeyOk K vok) s,
       SetReach vok s -> exists r, s_union s s = Ok r).
Proof.
  intros H. destruct (H E0 E0_ok Z K0 anyZ K0_ok sA sA_reach) as (r & Hr). vm_compute in Hr. discriminate.
Qed.
Print Assumptions C19_self_union_refuted.

(** A type for which this happens with ordinary data: KeyValue hashes its key only (kv.go), so three pairs with
    one key make a bucket, whatever the hash function. *)
Theorem C19_keyValue_refuted :
  ~ (forall s t, SetReach (T := keyValue Z Z) (fun _ => True) s -> SetReach (fun _ => True) t -> exists r, s_union s t = Ok r).
Proof.
  intros H.
  destruct (s_new [mkKV 1 1; mkKV 1 2; mkKV 1 3]%Z) as [s| |] eqn:Es; [|vm_compute in Es; discriminate..].
  destruct (H s s) as (r & Hr); try (eapply sr_new; [|exact Es]; intros; exact I).
  vm_compute in Es. injection Es as <-. vm_compute in Hr. discriminate.
Qed.
Print Assumptions C19_keyValue_refuted.

Theorem C19_merge_refuted :
  ~ (forall (m n : gomap Z Z), MapReach anyZ anyZ m -> MapReach anyZ anyZ n -> exists r, m_update m n = Ok r).
Proof.
  intros H. destruct (H mA mC mA_reach mC_reach) as (r & Hr). vm_compute in Hr. discriminate.
Qed.
Print Assumptions C19_merge_refuted.
