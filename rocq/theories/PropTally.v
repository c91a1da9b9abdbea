(** * PropTally: how many elements results have (C77).

    Generated by tools/genprops.py from SpecTally.v and tools/examples/PropTally.txt.
    Every theorem is followed by a case that meets its hypotheses. *)
From Verif Require Import Base Bits Env EnvFacts Node Iter Tree SetApi MapApi Reach Spec SpecLaws SpecTally ExampleData PropLaws.

(** Three sets: the number of elements in any of them, by inclusion and exclusion, as two inequalities. *)
Definition three (c : Z) : list (Z * sexp) :=
  [(c, SUnion (SUnion x0 x1) x2); (- c, x0); (- c, x1); (- c, x2); (c, SInter x0 x1); (c, SInter x0 x2); (c, SInter x1 x2); (- c, SInter (SInter x0 x1) x2)]%Z.
Definition rsThree : list (set Z) := Eval vm_compute in map (fun t => okOr s_empty (srun rho0 pi0 (snd t))) (three 1).
Lemma rsThree_runs c : Forall2 (fun t r => srun rho0 pi0 (snd t) = Ok r) (three c) rsThree.
Proof. repeat constructor; vm_compute; reflexivity. Qed.
Lemma three_table : (atMost0 3 0 (three 1) && atMost0 3 0 (three (-1)))%bool = true.
Proof. vm_compute. reflexivity. Qed.
Lemma three_all c : c = 1%Z \/ c = (-1)%Z -> forall b q, (tally b q (three c) <= 0)%Z.
Proof. pose proof three_table as H. apply andb_prop in H as [H1 H2]. intros [-> | ->]; apply (atMost0_spec 3 0); assumption. Qed.
(** An inequality that does not hold: |A union B| <= |A|. *)
Definition wrong : list (Z * sexp) := [(1, SUnion x0 x1); (-1, x0)]%Z.
Definition bW (i : nat) : bool := match i with 1%nat => true | _ => false end.
Definition s4 : set Z := Eval vm_compute in okOr s_empty (s_new [4]%Z).
Lemma s4_new : s_new [4]%Z = Ok s4. Proof. vm_compute. reflexivity. Qed.
Definition dAB : set Z := Eval vm_compute in okOr s_empty (s_difference sA sB).
Definition iAB : set Z := Eval vm_compute in okOr s_empty (s_intersection sA sB).
Definition xAB : set Z := Eval vm_compute in okOr s_empty (s_symmetricDifference sA sB).
Lemma dAB_run : s_difference sA sB = Ok dAB. Proof. vm_compute. reflexivity. Qed.
Lemma iAB_run : s_intersection sA sB = Ok iAB. Proof. vm_compute. reflexivity. Qed.
Lemma xAB_run : s_symmetricDifference sA sB = Ok xAB. Proof. vm_compute. reflexivity. Qed.
Lemma dAB_reach : SetReach anyZ dAB.
Proof. exact (sr_difference _ _ _ _ _ _ sA_reach sB_reach dAB_run). Qed.
Lemma dAB_sub : s_isSubsetOf dAB sA = Ok true. Proof. vm_compute. reflexivity. Qed.
Definition kA : set Z := Eval vm_compute in okOr s_empty (m_keys mA).
Definition kB : set Z := Eval vm_compute in okOr s_empty (m_keys mB).
Definition kU : set Z := Eval vm_compute in okOr s_empty (s_union kA kB).
Definition kI : set Z := Eval vm_compute in okOr s_empty (s_intersection kA kB).
Definition mU : gomap Z Z := Eval vm_compute in okOr m_empty (m_update mA mB).
Lemma kA_run : m_keys mA = Ok kA. Proof. vm_compute. reflexivity. Qed.
Lemma kB_run : m_keys mB = Ok kB. Proof. vm_compute. reflexivity. Qed.
Lemma kU_run : s_union kA kB = Ok kU. Proof. vm_compute. reflexivity. Qed.
Lemma kI_run : s_intersection kA kB = Ok kI. Proof. vm_compute. reflexivity. Qed.
Lemma mU_run : m_update mA mB = Ok mU. Proof. vm_compute. reflexivity. Qed.

Local Open Scope Z_scope.

Theorem C77_counts : forall {E : Env} {HE : EnvOk E} {T : Type} {K : Key T} {vok : T -> Prop} {KO : KeyOk K vok}
    (ts : list (Z * sexp)) rho pi rs,
  (forall b q, tally b q ts <= 0) -> (forall i, SetReach vok (rho i)) -> (forall j, respects vok (pi j)) ->
  Forall2 (fun t r => srun rho pi (snd t) = Ok r) ts rs -> counted (map fst ts) rs <= 0.
Proof. exact @c77_counts. Qed.
Print Assumptions C77_counts.
Example C77_counts_case : counted [1; -1; -1; -1; 1; 1; 1; -1]%Z rsThree = 0%Z.
Proof.
  pose proof (C77_counts (three 1) rho0 pi0 rsThree (three_all 1 (or_introl eq_refl)) rho0_reach pi0_respects (rsThree_runs 1)) as H1.
  pose proof (C77_counts (three (-1)) rho0 pi0 rsThree (three_all (-1) (or_intror eq_refl)) rho0_reach pi0_respects (rsThree_runs (-1))) as H2.
  revert H1 H2. unfold three, rsThree. cbn [map fst counted]. lia.
Qed.
Example C77_counts_run : map s_count rsThree = [7; 5; 4; 3; 2; 2; 2; 1]%Z.
Proof. vm_compute. reflexivity. Qed.

Theorem C77_table : forall {E : Env} {HE : EnvOk E} {T : Type} {K : Key T} {vok : T -> Prop} {KO : KeyOk K vok}
    n m (ts : list (Z * sexp)) rho pi rs,
  atMost0 n m ts = true -> (forall i, SetReach vok (rho i)) -> (forall j, respects vok (pi j)) ->
  Forall2 (fun t r => srun rho pi (snd t) = Ok r) ts rs -> counted (map fst ts) rs <= 0.
Proof. exact @c77_table. Qed.
Print Assumptions C77_table.
Example C77_table_case := C77_table 3 0 (three 1) rho0 pi0 rsThree (proj1 (andb_prop _ _ three_table)) rho0_reach pi0_respects (rsThree_runs 1).
(** |A union B| <= |A| + |B|, |A| <= |A union B|, |A minus B| <= |A|, |Where| <= |A|, |A xor C| <= |A xor B| + |B xor C|; but not |A union B| <= |A|. *)
Example C77_table_run : map (atMost0 3 1)
    [[(1, SUnion x0 x1); (-1, x0); (-1, x1)]; [(1, x0); (-1, SUnion x0 x1)]; [(1, SDiff x0 x1); (-1, x0)]; [(1, SWhere 0 x0); (-1, x0)];
     [(1, SXor x0 x2); (-1, SXor x0 x1); (-1, SXor x1 x2)]; wrong]%Z = [true; true; true; true; true; false].
Proof. vm_compute. reflexivity. Qed.

Theorem C77_only : forall {E : Env} {HE : EnvOk E} {T : Type} {K : Key T} {vok : T -> Prop} {KO : KeyOk K vok}
    (ts : list (Z * sexp)) (b q : nat -> bool) v one rs,
  vok v -> s_new [v] = Ok one ->
  Forall2 (fun t r => srun (fun i => if b i then one else s_empty) (fun j _ => q j) (snd t) = Ok r) ts rs -> counted (map fst ts) rs = tally b q ts.
Proof. exact @c77_only. Qed.
Print Assumptions C77_only.
Example C77_only_case : counted [1; -1]%Z [s4; s_empty] = 1%Z.
Proof. refine (C77_only (vok := anyZ) wrong bW (fun _ => false) 4%Z s4 [s4; s_empty] Logic.I s4_new _). repeat constructor; vm_compute; reflexivity. Qed.

Theorem C77_pair : forall {E : Env} {HE : EnvOk E} {T : Type} {K : Key T} {vok : T -> Prop} {KO : KeyOk K vok}
    s t u i d x,
  SetReach vok s -> SetReach vok t ->
  s_union s t = Ok u -> s_intersection s t = Ok i -> s_difference s t = Ok d -> s_symmetricDifference s t = Ok x ->
  s_count u + s_count i = s_count s + s_count t /\ s_count d + s_count i = s_count s /\ s_count x + 2 * s_count i = s_count s + s_count t.
Proof. exact @c77_pair. Qed.
Print Assumptions C77_pair.
Example C77_pair_case := C77_pair sA sB sAB iAB dAB xAB sA_reach sB_reach sAB_union iAB_run dAB_run xAB_run.
Example C77_pair_run : map s_count [sA; sB; sAB; iAB; dAB; xAB] = [5; 4; 7; 2; 3; 5]%Z.
Proof. vm_compute. reflexivity. Qed.

Theorem C77_subset : forall {E : Env} {HE : EnvOk E} {T : Type} {K : Key T} {vok : T -> Prop} {KO : KeyOk K vok}
    s t,
  SetReach vok s -> SetReach vok t -> s_isSubsetOf s t = Ok true ->
  s_count s <= s_count t /\ (s_count s = s_count t <-> s_equal s t = Ok true).
Proof. exact @c77_subset. Qed.
Print Assumptions C77_subset.
Example C77_subset_case := C77_subset dAB sA dAB_reach sA_reach dAB_sub.
Example C77_subset_run : (s_count dAB, s_count sA, s_equal dAB sA) = (3, 5, Ok false)%Z.
Proof. vm_compute. reflexivity. Qed.

Theorem C77_keys : forall {E : Env} {HE : EnvOk E} {X : Type} {V : Type} {KX : Key X} {kok : X -> Prop} {valok : V -> Prop} {KO : KeyOk KX kok} {ZV : Zero V}
    (m : gomap X V) ks,
  MapReach kok valok m -> m_keys m = Ok ks -> m_count m = s_count ks.
Proof. exact @c77_keys. Qed.
Print Assumptions C77_keys.
Example C77_keys_case := C77_keys mA kA mA_reach kA_run.
Example C77_keys_run : (m_count mA, s_count kA) = (4, 4)%Z.
Proof. vm_compute. reflexivity. Qed.

Theorem C77_update : forall {E : Env} {HE : EnvOk E} {X : Type} {V : Type} {KX : Key X} {kok : X -> Prop} {valok : V -> Prop} {KO : KeyOk KX kok} {ZV : Zero V}
    (m n r : gomap X V) km kn u i,
  MapReach kok valok m -> MapReach kok valok n -> m_update m n = Ok r ->
  m_keys m = Ok km -> m_keys n = Ok kn -> s_union km kn = Ok u -> s_intersection km kn = Ok i ->
  m_count r + s_count i = m_count m + m_count n.
Proof. exact @c77_update. Qed.
Print Assumptions C77_update.
Example C77_update_case := C77_update mA mB mU kA kB kU kI mA_reach mB_reach mU_run kA_run kB_run kU_run kI_run.
Example C77_update_run : (m_count mU, s_count kI, m_count mA, m_count mB) = (6, 1, 4, 3)%Z.
Proof. vm_compute. reflexivity. Qed.
