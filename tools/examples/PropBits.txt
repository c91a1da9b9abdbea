@@ Preamble
Definition rootA : node Z := Eval vm_compute in match t_root (s_tree sA) with Some n => n | None => Leaf1 0%Z end.
Lemma rootA_ok : t_root (s_tree sA) = Some rootA. Proof. reflexivity. Qed.
(** The bucket {1, 5, 9} of [sA] is 22 levels below the root. *)
Fixpoint firstPath (n : nat) (x : node Z) : option (node Z) :=
  match n, x with
  | O, _ => Some x
  | S n, Branch m data =>
      match child data (m_firstIndex m) with Some c => firstPath n c | None => None end
  | _, _ => None
  end.
Lemma firstPath_below n : forall x y, firstPath n x = Some y -> below n x y.
Proof.
  induction n as [|n IH]; intros x y H; cbn [firstPath] in H.
  - injection H as <-. constructor.
  - destruct x as [| | |m data]; try discriminate. destruct (child data (m_firstIndex m)) as [c|] eqn:Ec; [|discriminate].
    econstructor; eauto.
Qed.
@@ C29_depth
Definition deepA : nat := 21.
Definition nodeA : node Z := Eval vm_compute in match firstPath deepA rootA with Some x => x | None => Leaf1 0%Z end.
Lemma nodeA_below : below deepA rootA nodeA. Proof. apply firstPath_below. vm_compute. reflexivity. Qed.
Example C29_depth_case := C29_depth sA rootA deepA nodeA sA_reach rootA_ok nodeA_below.
@@ C29_shape
Example C29_shape_case := C29_shape sA rootA deepA nodeA sA_reach rootA_ok nodeA_below.
@@ C29_vet
Example C29_vet_case := C29_vet sAB sAB_reach.
@@ C29_lookup
Example C29_lookup_case := C29_lookup sA rootA 105%Z sA_reach rootA_ok I.
@@ C29_builder
Example C29_builder_case : exists b, sb_add (newSetBuilder 0%Z) 5%Z = Ok b /\ t_vet (sb_tree b) = Ok tt.
Proof.
  eexists. split; [vm_compute; reflexivity|]. apply (C29_builder (vok := anyZ)).
  eapply (sbr_add _ _ _ (newSetBuilder 0%Z) 5%Z); [constructor|exact I|vm_compute; reflexivity].
Qed.
@@ C29_map
Example C29_map_case := C29_map mA mA_reach.
@@ C29_mapBuilder
Example C29_mapBuilder_case : exists b, mb_put (newMapBuilder 0%Z) 5%Z 50%Z = Ok b /\ t_vet (mb_tree b) = Ok tt.
Proof.
  eexists. split; [vm_compute; reflexivity|]. apply (C29_mapBuilder (kok := anyZ) (valok := anyZ)).
  eapply (mbr_put _ _ _ _ _ _ (newMapBuilder 0%Z) 5%Z 50%Z); [constructor|exact I|exact I|vm_compute; reflexivity].
Qed.
@@ C31_enumerates
Example C31_enumerates_case := C31_enumerates 0xA5 ltac:(reflexivity).
Example C31_enumerates_run : mask_indices 0xA5 = [0; 2; 5; 7]%nat. Proof. reflexivity. Qed.
@@ C31_first
Example C31_first_case := C31_first 0xA4 ltac:(reflexivity) ltac:(discriminate).
@@ C31_firstIsIn
Example C31_firstIsIn_case := C31_firstIsIn 0xA4 0x0F ltac:(reflexivity) ltac:(discriminate).
@@ C31_subsetOf
Example C31_subsetOf_case := C31_subsetOf 0xA4 0xA5.
@@ C32_has
Example C32_has_case := C32_has 0xA4 5.
@@ C32_with
Example C32_with_case := C32_with 0xA4 63 ltac:(reflexivity) ltac:(lia).
@@ C32_next
Example C32_next_case := C32_next 0xA4 ltac:(reflexivity) ltac:(discriminate).
@@ C32_enumerates
Example C32_enumerates_case := C32_enumerates 0x8000000000000005 ltac:(reflexivity).
Example C32_enumerates_run : bi_indices 0x8000000000000005 = [0; 2; 63]%nat. Proof. reflexivity. Qed.
@@ C32_without_refuted
Example C32_without_run : bi_without 6 1 = 12 /\ bi_without 1 1 = 0. Proof. split; reflexivity. Qed.
@@ C32_without_computes
Example C32_without_computes_case := C32_without_computes 6 1 2 ltac:(lia).
@@ C32_without_zero_partial
Example C32_without_zero_case := C32_without_zero_partial 5 ltac:(reflexivity).
@@ C33_iota3
Example C33_iota3_case := C33_iota3 (h := fun z _ => Z.to_N z) 100 10 (-5) (-4)
  ltac:(unfold isInt; lia) ltac:(unfold isInt; lia) ltac:(lia) ltac:(unfold noOverflow; lia) ltac:(vm_compute; lia).
@@ C33_iota3_zero
Example C33_iota3_zero_case := C33_iota3_zero (h := fun z _ => Z.to_N z) 100 3 4.
@@ C33_forever
Example C33_forever_case := C33_forever (h := fun z _ => Z.to_N z) 1000.
@@ C33_mask
Example C33_mask_case := C33_mask (h := fun z _ => Z.to_N z) 0x8000000000000005%N ltac:(reflexivity).
@@ C34_range
Example C34_range_case := C34_range 5 105%Z.
@@ C34_restart
Example C34_restart_case := C34_restart 5 105%Z.
@@ C34_all_bits
Example C34_all_bits_case := C34_all_bits (K := K0) 5%Z 9%Z ltac:(reflexivity) ltac:(reflexivity).
