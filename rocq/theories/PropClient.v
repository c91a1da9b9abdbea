(** * PropClient: programs that use sets and maps (C67).

    Generated by tools/genprops.py from SpecClient.v and tools/examples/PropClient.txt.
    Every theorem is followed by a case that meets its hypotheses. *)
From Verif Require Import Base Bits Env EnvFacts Node Iter Tree SetApi MapApi Reach Spec SpecLaws SpecClient ExampleData.

(** A program that makes sets, asks, and goes on differently according to the answer. *)
Definition demo : client Z Z (bool * Z * option Z) :=
  MakeSet (CNew [1; 2; 103; 5]%Z) (
  MakeSet (CBuild 4 [SbAdd 3; SbAdd 7; SbFinish; SbAdd 2; SbAdd 9; SbRemove 109; SbAdd 105])%Z (
  MakeSet (CIntersection 0 1) (
  Ask (QHas 2 205%Z) (fun b =>
    if b then
      MakeSet (CUnion 2 0) (
      MakeSet (CWhere 3 (fun v => (v mod 100 <? 4)%Z)) (
      MakeMap (CFromKeys 4 (fun v => (10 * (v mod 100))%Z)) (
      MakeMap (CMerge 0 0 (fun _ a b => (a + b)%Z)) (
      Ask (QMapCount 1) (fun n => Ask (QEqual 3 0) (fun e => Ask (QGet 1 303%Z) (fun o => Done (e, n, o))))))))
    else Done (false, 0%Z, None))))).
Lemma demo_ok : clientOk anyZ demo.
Proof.
  assert (HZ : forall x, anyZ x) by (intros; exact Logic.I).
  assert (Hq : forall a b : Z, (a mod 100 =? b mod 100)%Z = true -> (a mod 100 = b mod 100)%Z) by (intros; apply Z.eqb_eq; auto).
  cbn. split; [auto|]. split; [repeat constructor|]. split; [auto|]. split; [auto|]. intros [] _; cbn; auto.
  split; [auto|]. split; [intros a b _ _ H; cbn in H; rewrite (Hq _ _ H); auto|].
  split; [intros a b _ _ H; cbn in H; rewrite (Hq _ _ H); auto|]. split; [auto|]. split; [auto|]. intros n _. split; [auto|]. intros e _. split; auto.
Qed.
Lemma demo_plain : plain demo.
Proof. cbn. split; [exact Logic.I|]. intros []; cbn; auto. Qed.
(** One that asks for the elements: from them it makes a set again and compares. *)
Definition again : client Z Z (list Z * bool) :=
  MakeSet (CNew [1; 2; 103; 5]%Z) (Ask (QElements 0) (fun l => MakeSet (CNew (rev l)) (Ask (QEqual 0 1) (fun b => Done (l, b))))).
Lemma again_ok : clientOk anyZ again.
Proof. cbn. repeat split; intros; repeat split; intros; exact Logic.I. Qed.
(** The same equality with a hash that tells unequal elements apart. *)
Definition h100 (a : Z) (seed : N) : N := wrap 64 (Z.to_N (a mod 100) + seed).
Definition K100 : Key Z := {| veq := fun a b => (a mod 100 =? b mod 100)%Z; vhash := h100 |}.
Lemma K100_ok : KeyOk K100 anyZ.
Proof.
  constructor; cbn; intros.
  - apply Z.eqb_refl.
  - rewrite Z.eqb_sym. auto.
  - apply Z.eqb_eq. rewrite Z.eqb_eq in *. congruence.
  - rewrite Z.eqb_eq in *. unfold h100. congruence.
  - apply wrap_lt.
Qed.
Lemma K100_noTriples : noTriples K100 anyZ.
Proof.
  intros a b c _ _ _ H _ _ Hh _. cbn in H, Hh. apply Z.eqb_neq in H. apply H. unfold h100, wrap in Hh. rewrite !N.add_0_r in Hh.
  pose proof (Z.mod_pos_bound a 100 ltac:(lia)). pose proof (Z.mod_pos_bound b 100 ltac:(lia)).
  rewrite !N.mod_small in Hh by (change (2 ^ 64)%N with 18446744073709551616%N; lia). lia.
Qed.

Theorem C67_from : forall {E : Env} {HE : EnvOk E} {X : Type} {V : Type} {KX : Key X} {kok : X -> Prop} {KO : KeyOk KX kok} {KV : Key V} {ZV : Zero V}
    {A} (c : client X V A),
  forall S M P F, clientOk kok c ->
  Forall2 (fun s Q => SetReach kok s /\ Answers kok s Q) S P -> Forall2 (fun m G => MapReach kok (fun _ => True) m /\ MapAnswers kok m G) M F ->
  (runClient c (S, M) = Panic /\ Clashes kok) \/
  exists a, runClient c (S, M) = Ok a /\ means kok c (P, F) a.
Proof. exact @c67_from. Qed.
Print Assumptions C67_from.
Example C67_from_case := C67_from (kok := anyZ) (Ask (QSubset 0 1) (fun b => MakeSet (CDifference 1 0) (Ask (QCount 2) (fun n => Done (b, n)))))
  [sA; sA'] [] [Has sA; Has sA'] ([] : list (Z -> option Z)).
Example C67_from_run : runClient (Ask (QSubset 0 1) (fun b => MakeSet (CDifference 1 0) (Ask (QCount 2) (fun n => Done (b, n))))) ([sA; sB], [] : list (gomap Z Z)) = Ok (false, 2%Z).
Proof. vm_compute. reflexivity. Qed.

Theorem C67_refines : forall {E : Env} {HE : EnvOk E} {X : Type} {V : Type} {KX : Key X} {kok : X -> Prop} {KO : KeyOk KX kok} {KV : Key V} {ZV : Zero V}
    {A} (c : client X V A),
  clientOk kok c ->
  (runClient c ([], []) = Panic /\ Clashes kok) \/ exists a, runClient c ([], []) = Ok a /\ means kok c ([], []) a.
Proof. exact @c67_refines. Qed.
Print Assumptions C67_refines.
Example C67_refines_case := C67_refines demo demo_ok.
Example C67_refines_run : runClient demo ([], []) = Ok (true, 3%Z, Some 60%Z).
Proof. vm_compute. reflexivity. Qed.
Example C67_refines_case2 := C67_refines again again_ok.
Example C67_refines_run2 : runClient again ([], []) = Ok ([1; 5; 2; 103]%Z, true).
Proof. vm_compute. reflexivity. Qed.
(** The other way a run can end (C19). *)
Example C67_refines_panic :
  runClient (A := Z) (V := Z) (MakeSet (CNew [0; 4; 8]%Z) (MakeSet (CNew [12; 16; 20]%Z) (MakeSet (CUnion 0 1) (Ask (QCount 2) Done)))) ([], []) = Panic.
Proof. vm_compute. reflexivity. Qed.

Theorem C67_returns : forall {E : Env} {HE : EnvOk E} {X : Type} {V : Type} {KX : Key X} {kok : X -> Prop} {KO : KeyOk KX kok} {KV : Key V} {ZV : Zero V}
    {A} (c : client X V A),
  clientOk kok c -> noTriples KX kok ->
  exists a, runClient c ([], []) = Ok a /\ means kok c ([], []) a.
Proof. exact @c67_returns. Qed.
Print Assumptions C67_returns.
Example C67_returns_case := C67_returns (KX := K100) (KO := K100_ok) demo demo_ok K100_noTriples.
Example C67_returns_run : runClient (KX := K100) (A := Z) (V := Z) (MakeSet (CNew [0; 4; 8]%Z) (MakeSet (CNew [12; 16; 20]%Z) (MakeSet (CUnion 0 1) (Ask (QCount 2) Done)))) ([], []) = Ok 6%Z.
Proof. vm_compute. reflexivity. Qed.

Theorem C67_determined : forall {X : Type} {V : Type} {KX : Key X} {kok : X -> Prop} {KO : KeyOk KX kok} {KV : Key V}
    {A} (c : client X V A) a b,
  plain c -> clientOk kok c -> means kok c ([], []) a -> means kok c ([], []) b -> a = b.
Proof. exact @c67_determined. Qed.
Print Assumptions C67_determined.
Example C67_determined_case := C67_determined (KX := K0) (KV := K0) (kok := anyZ) demo (true, 3%Z, Some 60%Z).

Theorem C67_environments : forall (E1 E2 : Env) (HE1 : EnvOk E1) (HE2 : EnvOk E2) (X V A : Type) (eqX : X -> X -> bool) (h1 h2 : X -> N -> N) (kok : X -> Prop)
  (KO1 : KeyOk {| veq := eqX; vhash := h1 |} kok) (KO2 : KeyOk {| veq := eqX; vhash := h2 |} kok) (KV : Key V) (ZV : Zero V) (c : client X V A) a b,
  plain c -> clientOk (KX := {| veq := eqX; vhash := h1 |}) kok c ->
  runClient (E := E1) (KX := {| veq := eqX; vhash := h1 |}) c ([], []) = Ok a ->
  runClient (E := E2) (KX := {| veq := eqX; vhash := h2 |}) c ([], []) = Ok b ->
  a = b.
Proof. exact @c67_environments. Qed.
Print Assumptions C67_environments.
Example C67_environments_case := C67_environments E0 E4 E0_ok E4_ok Z Z _ (@veq Z K0) (@vhash Z K0) h100 anyZ K0_ok K100_ok K0 Z0 demo (true, 3%Z, Some 60%Z) (true, 3%Z, Some 60%Z) demo_plain demo_ok.
Example C67_environments_run : runClient (E := E4) (KX := K100) demo ([], []) = Ok (true, 3%Z, Some 60%Z).
Proof. vm_compute. reflexivity. Qed.
(** Programs that ask for the elements see them in an order that depends on the hash. *)
Example C67_environments_order : runClient (KX := K100) again ([], []) = Ok ([1; 2; 103; 5]%Z, true).
Proof. vm_compute. reflexivity. Qed.
