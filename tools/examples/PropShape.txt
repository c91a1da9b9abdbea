@@ Preamble
Definition rootOf (s : set Z) : option (node Z) := t_root (s_tree s).

@@ C64_twins
(** [sA'] has the elements of [sA], from another history: they are in other orders in the leaves. *)
Example C64_twins_case : twino (rootOf sA) (rootOf sA').
Proof. apply (C64_twins sA sA' sA_reach sA'_reach). vm_compute. reflexivity. Qed.

@@ C64_sizes
Example C64_sizes_case := C64_sizes sA sA' sA_reach sA'_reach ltac:(vm_compute; reflexivity).
Example C64_sizes_run : (nodeCounto (rootOf sA), levelso (rootOf sA), nodeCounto (rootOf sA')) = (24, 23, 24)%nat.
Proof. vm_compute. reflexivity. Qed.

@@ C64_order
Example C64_order_case := C64_order sA sA' sA_reach sA'_reach ltac:(vm_compute; reflexivity).
Example C64_order_run : (leaveso (rootOf sA), leaveso (rootOf sA')) = ([[1; 5; 9]; [2; 3]], [[1; 309; 5]; [103; 2]])%Z.
Proof. vm_compute. reflexivity. Qed.

@@ C64_nearby
(** Two sets of pairs with one hash. *)
Definition lP : list Z := [1; 2; 5; 6; 3; 8]%Z.
Definition sP : set Z := Eval vm_compute in okOr s_empty (s_new lP).
Lemma sP_reach : SetReach anyZ sP.
Proof. apply (sr_new _ _ _ lP); [|vm_compute; reflexivity]. intros v _. exact Logic.I. Qed.
Definition lQ : list Z := [108; 3; 6; 105; 2; 1]%Z.
Definition sQ : set Z := Eval vm_compute in okOr s_empty (s_new lQ).
Lemma sQ_reach : SetReach anyZ sQ.
Proof. apply (sr_new _ _ _ lQ); [|vm_compute; reflexivity]. intros v _. exact Logic.I. Qed.
Definition elP : list Z := Eval vm_compute in okOr [] (s_elements sP).
Definition elQ : list Z := Eval vm_compute in okOr [] (s_elements sQ).
Lemma pairs_only : forall a, In a elP -> (number (fun b => N.eqb (vhash b 0) (vhash a 0)) elP <= 2)%nat.
Proof. intros a Ha. unfold elP in Ha. repeat (destruct Ha as [<-|Ha]; [vm_compute; lia|]). destruct Ha. Qed.
Example C64_nearby_case := C64_nearby sP sQ elP elQ 3 (nth 3 elP 0%Z) sP_reach sQ_reach ltac:(vm_compute; reflexivity) ltac:(vm_compute; reflexivity) ltac:(vm_compute; reflexivity) pairs_only eq_refl.
Example C64_nearby_run : (elP, elQ) = ([8; 1; 5; 2; 6; 3], [108; 105; 1; 6; 2; 3])%Z.
Proof. vm_compute. reflexivity. Qed.

@@ C64_again
Lemma elA_rev : Permutation elA (rev elA). Proof. apply Permutation_rev. Qed.
Definition sR : set Z := Eval vm_compute in okOr s_empty (s_new (rev elA)).
Example C64_again_case := C64_again sA elA (rev elA) sR sA_reach sA_elements elA_rev ltac:(vm_compute; reflexivity).

@@ C64_builder
(** A builder that got 13 and lost it again. *)
Definition opsR : list (sbOp Z) := map (fun v => if (v =? 113)%Z then SbRemove v else SbAdd v) [13; 1; 6; 113; 5; 2; 3; 8]%Z.
Definition bR : setBuilder Z := Eval vm_compute in match sb_run (newSetBuilder 0%Z) opsR with Ok (b, _) => b | _ => newSetBuilder 0%Z end.
Lemma bR_run : sb_run (newSetBuilder 0%Z) opsR = Ok (bR, []). Proof. vm_compute. reflexivity. Qed.
Lemma bR_reach : SBReach anyZ bR.
Proof.
  apply (proj2 (c16_finished_reachable (vok := anyZ) opsR (newSetBuilder 0%Z) bR [] (sbr_new _ _ _ 0%Z) ltac:(repeat constructor) bR_run)).
Qed.
Example C64_builder_case := C64_builder bR sP bR_reach sP_reach ltac:(vm_compute; reflexivity).

@@ C64_maps
(** [mA] and [mA'] have the same keys; the value at 1 is changed. *)
Definition mA9 : gomap Z Z := Eval vm_compute in okOr m_empty (m_with mA' 1 77)%Z.
Lemma mA9_reach : MapReach anyZ anyZ mA9.
Proof. eapply (mr_with _ _ _ _ _ _ mA' 1%Z 77%Z); [apply mA'_reach|exact Logic.I|exact Logic.I|]. vm_compute. reflexivity. Qed.
Lemma mA9_keys k : anyZ k -> m_has mA k = m_has mA9 k.
Proof.
  intros Hk. unfold m_has. rewrite !(m_get_ok (kok := anyZ)) by (exact Hk || (apply (mreach_ok (valok := anyZ)); first [apply mA_reach|apply mA9_reach])).
  unfold mget, klk. cbn [bind].
  assert (E1 : forall l : list (entry Z Z), isSome (option_map e_val (find (fun e => veq (e_key e) k) l)) = existsb (Z.eqb (k mod 100)) (map (fun e => e_key e mod 100)%Z l)).
  { clear. induction l as [|e l IH]; auto. cbn [find map existsb]. change (veq (e_key e) k) with (e_key e mod 100 =? k mod 100)%Z. rewrite Z.eqb_sym. destruct (_ =? _)%Z; auto. }
  transitivity (Ok (isSome (option_map e_val (find (fun e => veq (e_key e) k) (mel mA))))); [reflexivity|].
  transitivity (Ok (isSome (option_map e_val (find (fun e => veq (e_key e) k) (mel mA9))))); [|reflexivity]. f_equal. rewrite !E1.
  change (map (fun e => e_key e mod 100)%Z (mel mA)) with [1; 5; 9; 2]%Z. change (map (fun e => e_key e mod 100)%Z (mel mA9)) with [9; 5; 1; 2]%Z.
  cbn [existsb]. generalize (k mod 100)%Z. intros j. destruct (j =? 1)%Z, (j =? 5)%Z, (j =? 9)%Z; reflexivity.
Qed.
Example C64_maps_case := C64_maps mA mA9 mA_reach mA9_reach mA9_keys.
