(** * PropKeys: maps against the sets of their keys (C79).

    Generated by tools/genprops.py from SpecKeys.v and tools/examples/PropKeys.txt.
    Every theorem is followed by a case that meets its hypotheses. *)
From Verif Require Import Base Bits Env EnvFacts Node Iter Tree SetApi MapApi Reach Spec SpecMapLaws SpecKeys ExampleData PropMapLaws.

(** The sets of keys of mA and mB. *)
Definition kA : set Z := Eval vm_compute in okOr s_empty (m_keys mA).
Definition kB : set Z := Eval vm_compute in okOr s_empty (m_keys mB).
Definition sigM (i : nat) : set Z := match i with 0 => kA | _ => kB end%nat.
Lemma sigM_keys i : m_keys (rhoM i) = Ok (sigM i).
Proof. destruct i as [|i]; vm_compute; reflexivity. Qed.
(** The entries with small keys of a merge by adding, doubled; updated by some entries of mB; with key 44 and without key 1. *)
Definition eK : mexp Z Z := MWithout 1%Z (MWith 44%Z 4%Z (MUpdate
  (MMap (fun _ v => (2 * v)%Z) (MWhere (fun k _ => (k mod 100 <? 7)%Z) (MMerge (fun _ a b => (a + b)%Z) v0 v1))) (MProject [6; 7; 8]%Z v1))).
Lemma eK_proper : Proper anyZ anyZ eK.
Proof. repeat split; auto. intros k k' _ _ _ H. cbn in H. apply Z.eqb_eq in H. rewrite H. reflexivity. Qed.
Lemma eK_tests : KeyTests eK.
Proof. repeat split. Qed.
Definition setShown (r : res (set Z)) : option (list Z) := match r with Ok s => match s_elements s with Ok l => Some l | _ => None end | _ => None end.
Definition mSmall : gomap Z Z := Eval vm_compute in okOr m_empty (m_where mA (fun _ v => (v <? 30)%Z)).
Definition kSmall : set Z := Eval vm_compute in okOr s_empty (m_keys mSmall).
Lemma mSmall_run : m_where mA (fun _ v => (v <? 30)%Z) = Ok mSmall.
Proof. vm_compute. reflexivity. Qed.
Lemma kSmall_run : m_keys mSmall = Ok kSmall.
Proof. vm_compute. reflexivity. Qed.

Theorem C79_keys : forall {E : Env} {HE : EnvOk E} {X : Type} {V : Type} {KX : Key X} {kok : X -> Prop} {valok : V -> Prop} {KO : KeyOk KX kok} {ZV : Zero V}
    rho sig e,
  (forall i, MapReach kok valok (rho i)) -> (forall i, m_keys (rho i) = Ok (sig i)) -> Proper kok valok e -> KeyTests e ->
  (mrun rho e = Panic /\ krun sig e = Panic) \/
  exists m s k, mrun rho e = Ok m /\ krun sig e = Ok s /\ m_keys m = Ok k /\ s_equal k s = Ok true /\
    m_count m = s_count s /\ forall w, kok w -> m_has m w = s_has s w.
Proof. exact @c79_keys. Qed.
Print Assumptions C79_keys.
Example C79_keys_case := C79_keys rhoM sigM eK rhoM_reach sigM_keys eK_proper eK_tests.
Example C79_keys_run : (shownM (mrun rhoM eK), setShown (krun sigM eK)) =
  (Some [(44, 4); (5, 100); (102, 444); (6, 60); (7, 70)], Some [44; 5; 2; 6; 7])%Z.
Proof. vm_compute. reflexivity. Qed.

Theorem C79_where : forall {E : Env} {HE : EnvOk E} {X : Type} {V : Type} {KX : Key X} {kok : X -> Prop} {valok : V -> Prop} {KO : KeyOk KX kok} {ZV : Zero V}
    m p r k k',
  MapReach kok valok m -> m_where m p = Ok r -> m_keys m = Ok k -> m_keys r = Ok k' -> s_isSubsetOf k' k = Ok true.
Proof. exact @c79_where. Qed.
Print Assumptions C79_where.
Example C79_where_case : s_isSubsetOf kSmall kA = Ok true := C79_where mA _ mSmall kA kSmall mA_reach mSmall_run (sigM_keys 0) kSmall_run.
Example C79_where_run : (setShown (Ok kSmall), setShown (Ok kA)) = (Some [1; 102], Some [1; 5; 9; 102])%Z.
Proof. vm_compute. reflexivity. Qed.
