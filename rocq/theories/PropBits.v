(** * PropBits: the trie's shape, masks, Iota and the hasher (C29, C31-C34).

    Generated by tools/genprops.py from SpecBits.v and tools/examples/PropBits.txt.
    Every theorem is followed by a case that meets its hypotheses. *)
From Coq Require Import Sorting.Sorted.
From Verif Require Import Base Bits Env EnvFacts Node Iter Tree SetApi MapApi BitFacts ExtraFacts Reach Spec SpecSet SpecBits ExampleData.

Definition rootA : node Z := Eval vm_compute in match t_root (s_tree sA) with Some n => n | None => Leaf1 0%Z end.
Lemma rootA_ok : t_root (s_tree sA) = Some rootA. Proof. reflexivity. Qed.
(** The bucket {1, 5, 9} of [sA] is 22 levels below the root. *)
Fixpoint firstPath (n : nat) (x : node Z) : option (node Z) :=
  match n, x with
  | O, _ => Some x
  | S n, Branch m data =>
      match child data (m_firstIndex m) with Some c => firstPath n c | None => None end
  | _, _ => None
  end.
Lemma firstPath_below n : forall x y, firstPath n x = Some y -> below n x y.
Proof.
  induction n as [|n IH]; intros x y H; cbn [firstPath] in H.
  - injection H as <-. constructor.
  - destruct x as [| | |m data]; try discriminate. destruct (child data (m_firstIndex m)) as [c|] eqn:Ec; [|discriminate].
    econstructor; eauto.
Qed.

Theorem C29_depth : forall {E : Env} {HE : EnvOk E} {T : Type} {K : Key T} {vok : T -> Prop} {KO : KeyOk K vok}
    s n k x,
  SetReach vok s -> t_root (s_tree s) = Some n -> below k n x -> k <= 1 + 63 / fb.
Proof. exact @c29_depth. Qed.
Print Assumptions C29_depth.
Definition deepA : nat := 21.
Definition nodeA : node Z := Eval vm_compute in match firstPath deepA rootA with Some x => x | None => Leaf1 0%Z end.
Lemma nodeA_below : below deepA rootA nodeA. Proof. apply firstPath_below. vm_compute. reflexivity. Qed.
Example C29_depth_case := C29_depth sA rootA deepA nodeA sA_reach rootA_ok nodeA_below.

Theorem C29_shape : forall {E : Env} {HE : EnvOk E} {T : Type} {K : Key T} {vok : T -> Prop} {KO : KeyOk K vok}
    s n k x,
  SetReach vok s -> t_root (s_tree s) = Some n -> below k n x -> Shaped k x.
Proof. exact @c29_shape. Qed.
Print Assumptions C29_shape.
Example C29_shape_case := C29_shape sA rootA deepA nodeA sA_reach rootA_ok nodeA_below.

Theorem C29_vet : forall {E : Env} {HE : EnvOk E} {T : Type} {K : Key T} {vok : T -> Prop} {KO : KeyOk K vok}
    s,
  SetReach vok s -> t_vet (s_tree s) = Ok tt.
Proof. exact @c29_vet. Qed.
Print Assumptions C29_vet.
Example C29_vet_case := C29_vet sAB sAB_reach.

Theorem C29_lookup : forall {E : Env} {HE : EnvOk E} {T : Type} {K : Key T} {vok : T -> Prop} {KO : KeyOk K vok}
    s n v,
  SetReach vok s -> t_root (s_tree s) = Some n -> vok v ->
  exists o, get (2 + 63 / fb) n v (newHasher v 0) = Ok o /\ t_get (s_tree s) v = Ok o.
Proof. exact @c29_lookup. Qed.
Print Assumptions C29_lookup.
Example C29_lookup_case := C29_lookup sA rootA 105%Z sA_reach rootA_ok I.

Theorem C29_builder : forall {E : Env} {HE : EnvOk E} {T : Type} {K : Key T} {vok : T -> Prop} {KO : KeyOk K vok}
    b,
  SBReach vok b ->
  t_vet (sb_tree b) = Ok tt /\
  forall n k x, t_root (sb_tree b) = Some n -> below k n x -> k <= 1 + 63 / fb /\ Shaped k x.
Proof. exact @c29_builder. Qed.
Print Assumptions C29_builder.
Example C29_builder_case : exists b, sb_add (newSetBuilder 0%Z) 5%Z = Ok b /\ t_vet (sb_tree b) = Ok tt.
Proof.
  eexists. split; [vm_compute; reflexivity|]. apply (C29_builder (vok := anyZ)).
  eapply (sbr_add _ _ _ (newSetBuilder 0%Z) 5%Z); [constructor|exact I|vm_compute; reflexivity].
Qed.

Theorem C29_map : forall {E : Env} {HE : EnvOk E} {X : Type} {V : Type} {KX : Key X} {kok : X -> Prop} {KO : KeyOk KX kok} {valok : V -> Prop}
    (m : gomap X V),
  MapReach kok valok m ->
  t_vet (m_tree m) = Ok tt /\
  (forall n k x, t_root (m_tree m) = Some n -> below k n x -> k <= 1 + 63 / fb /\ Shaped k x) /\
  (forall n v, t_root (m_tree m) = Some n -> kok (e_key v) ->
     exists o, get (2 + 63 / fb) n v (newHasher v 0) = Ok o /\ t_get (m_tree m) v = Ok o).
Proof. exact @c29_map. Qed.
Print Assumptions C29_map.
Example C29_map_case := C29_map mA mA_reach.

Theorem C29_mapBuilder : forall {E : Env} {HE : EnvOk E} {X : Type} {V : Type} {KX : Key X} {kok : X -> Prop} {KO : KeyOk KX kok} {valok : V -> Prop}
    (b : mapBuilder X V),
  MBReach kok valok b ->
  t_vet (mb_tree b) = Ok tt /\
  forall n k x, t_root (mb_tree b) = Some n -> below k n x -> k <= 1 + 63 / fb /\ Shaped k x.
Proof. exact @c29_mapBuilder. Qed.
Print Assumptions C29_mapBuilder.
Example C29_mapBuilder_case : exists b, mb_put (newMapBuilder 0%Z) 5%Z 50%Z = Ok b /\ t_vet (mb_tree b) = Ok tt.
Proof.
  eexists. split; [vm_compute; reflexivity|]. apply (C29_mapBuilder (kok := anyZ) (valok := anyZ)).
  eapply (mbr_put _ _ _ _ _ _ (newMapBuilder 0%Z) 5%Z 50%Z); [constructor|exact I|exact I|vm_compute; reflexivity].
Qed.

Local Open Scope N_scope.

Theorem C31_enumerates : forall m,
  m < 2 ^ 16 ->
  StronglySorted lt (mask_indices m) /\
  forall i, In i (mask_indices m) <-> N.testbit m (N.of_nat i) = true.
Proof. exact @c31_enumerates. Qed.
Print Assumptions C31_enumerates.
Example C31_enumerates_case := C31_enumerates 0xA5 ltac:(reflexivity).
Example C31_enumerates_run : mask_indices 0xA5 = [0; 2; 5; 7]%nat. Proof. reflexivity. Qed.

Theorem C31_first : forall m,
  m < 2 ^ 16 -> m <> 0 ->
  N.testbit m (N.of_nat (m_firstIndex m)) = true /\
  (forall i, N.testbit m (N.of_nat i) = true -> (m_firstIndex m <= i)%nat) /\
  m_first m = 2 ^ N.of_nat (m_firstIndex m) /\
  m_next m = m - m_first m.
Proof. exact @c31_first. Qed.
Print Assumptions C31_first.
Example C31_first_case := C31_first 0xA4 ltac:(reflexivity) ltac:(discriminate).

Theorem C31_firstIsIn : forall m n,
  m < 2 ^ 16 -> m <> 0 ->
  m_firstIsIn m n = N.testbit n (N.of_nat (m_firstIndex m)).
Proof. exact @c31_firstIsIn. Qed.
Print Assumptions C31_firstIsIn.
Example C31_firstIsIn_case := C31_firstIsIn 0xA4 0x0F ltac:(reflexivity) ltac:(discriminate).

Theorem C31_subsetOf : forall m n,
  m_subsetOf m n = true <->
  (forall i, N.testbit m i = true -> N.testbit n i = true).
Proof. exact @c31_subsetOf. Qed.
Print Assumptions C31_subsetOf.
Example C31_subsetOf_case := C31_subsetOf 0xA4 0xA5.

Theorem C32_has : forall b i,
  bi_has b i = ((i <? 64)%nat && N.testbit b (N.of_nat i))%bool.
Proof. exact @c32_has. Qed.
Print Assumptions C32_has.
Example C32_has_case := C32_has 0xA4 5.

Theorem C32_with : forall b i,
  b < 2 ^ 64 -> (i < 64)%nat ->
  bi_with b i < 2 ^ 64 /\
  forall j, N.testbit (bi_with b i) (N.of_nat j) = ((j =? i)%nat || N.testbit b (N.of_nat j))%bool.
Proof. exact @c32_with. Qed.
Print Assumptions C32_with.
Example C32_with_case := C32_with 0xA4 63 ltac:(reflexivity) ltac:(lia).

Theorem C32_next : forall b,
  b < 2 ^ 64 -> b <> 0 ->
  N.testbit b (N.of_nat (bi_index b)) = true /\
  forall j, N.testbit (bi_next b) (N.of_nat j) = (N.testbit b (N.of_nat j) && (bi_index b <? j)%nat)%bool.
Proof. exact @c32_next. Qed.
Print Assumptions C32_next.
Example C32_next_case := C32_next 0xA4 ltac:(reflexivity) ltac:(discriminate).

Theorem C32_enumerates : forall b,
  b < 2 ^ 64 ->
  StronglySorted lt (bi_indices b) /\
  (forall i, In i (bi_indices b) <-> (i < 64)%nat /\ N.testbit b (N.of_nat i) = true) /\
  bi_count b = length (bi_indices b).
Proof. exact @c32_enumerates. Qed.
Print Assumptions C32_enumerates.
Example C32_enumerates_case := C32_enumerates 0x8000000000000005 ltac:(reflexivity).
Example C32_enumerates_run : bi_indices 0x8000000000000005 = [0; 2; 63]%nat. Proof. reflexivity. Qed.

Theorem C32_without_refuted : ~ (forall b i, b < 2 ^ 64 -> (i < 64)%nat -> clearsBit b i (bi_without b i)).
Proof. exact @c32_without_refuted. Qed.
Print Assumptions C32_without_refuted.
Example C32_without_run : bi_without 6 1 = 12 /\ bi_without 1 1 = 0. Proof. split; reflexivity. Qed.

Theorem C32_without_computes : forall b i j,
  (j < 64)%nat ->
  N.testbit (bi_without b i) (N.of_nat j) = ((i <? j)%nat && N.testbit b (N.of_nat (j - i)))%bool.
Proof. exact @c32_without_computes. Qed.
Print Assumptions C32_without_computes.
Example C32_without_computes_case := C32_without_computes 6 1 2 ltac:(lia).

Theorem C32_without_zero_partial : forall b,
  b < 2 ^ 64 -> clearsBit b 0 (bi_without b 0).
Proof. exact @c32_without_zero. Qed.
Print Assumptions C32_without_zero_partial.
Example C32_without_zero_case := C32_without_zero_partial 5 ltac:(reflexivity).

Local Open Scope Z_scope.

Theorem C33_iota3 : forall {E : Env} {h : Z -> N -> N}
    fuel start stop step,
  isInt start -> isInt stop -> step <> 0 -> noOverflow stop step ->
  (iotaRounds start stop <= fuel)%nat ->
  exists r, s_iota3 (K := intKey h) fuel start stop step = Ok r /\
    (forall v, isInt v -> Has (K := intKey h) r v <-> exists k, 0 <= k /\ v = start + k * step /\ before step v stop).
Proof. exact @c33_iota3. Qed.
Print Assumptions C33_iota3.
Example C33_iota3_case := C33_iota3 (h := fun z _ => Z.to_N z) 100 10 (-5) (-4)
  ltac:(unfold isInt; lia) ltac:(unfold isInt; lia) ltac:(lia) ltac:(unfold noOverflow; lia) ltac:(vm_compute; lia).

Theorem C33_iota3_zero : forall {E : Env} {h : Z -> N -> N}
    fuel start stop,
  s_iota3 (K := intKey h) fuel start stop 0 = if start =? stop then Ok s_empty else Panic.
Proof. exact @c33_iota3_zero. Qed.
Print Assumptions C33_iota3_zero.
Example C33_iota3_zero_case := C33_iota3_zero (h := fun z _ => Z.to_N z) 100 3 4.

Theorem C33_forever : forall {E : Env} {h : Z -> N -> N}
    fuel,
  s_iota3 (K := intKey h) fuel 0 (2 ^ 63 - 1) 2 = Fuel.
Proof. exact @c33_forever. Qed.
Print Assumptions C33_forever.
Example C33_forever_case := C33_forever (h := fun z _ => Z.to_N z) 1000.

Theorem C33_mask : forall {E : Env} {h : Z -> N -> N}
    mask,
  (mask < 2 ^ 64)%N ->
  exists r, s_fromMask64 (K := intKey h) mask = Ok r /\
    (forall v, isInt v -> Has (K := intKey h) r v <-> 0 <= v < 64 /\ N.testbit mask (Z.to_N v) = true) /\
    s_count r = Z.of_nat (bi_count mask).
Proof. exact @c33_mask. Qed.
Print Assumptions C33_mask.
Example C33_mask_case := C33_mask (h := fun z _ => Z.to_N z) 0x8000000000000005%N ltac:(reflexivity).

Theorem C34_range : forall {E : Env} {T : Type} {K : Key T}
    k (v : T),
  (childIndex k v < fanout)%nat.
Proof. exact @c34_range. Qed.
Print Assumptions C34_range.
Example C34_range_case := C34_range 5 105%Z.

Theorem C34_restart : forall {E : Env} {T : Type} {K : Key T}
    k (v : T),
  newHasher v k = Nat.iter k h_next (newHasher v 0).
Proof. exact @c34_restart. Qed.
Print Assumptions C34_restart.
Example C34_restart_case := C34_restart 5 105%Z.

Theorem C34_all_bits : forall {E : Env} {T : Type} {K : Key T}
    (a b : T),
  (vhash a 0 < 2 ^ 64)%N -> (vhash b 0 < 2 ^ 64)%N ->
  (forall k, (k < maxTreeDepth)%nat -> childIndex k a = childIndex k b) <-> vhash a 0 = vhash b 0.
Proof. exact @c34_all_bits. Qed.
Print Assumptions C34_all_bits.
Example C34_all_bits_case := C34_all_bits (K := K0) 5%Z 9%Z ltac:(reflexivity) ltac:(reflexivity).
