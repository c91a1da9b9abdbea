@@ Preamble
Definition sE : set Z := Eval vm_compute in okOr s_empty (s_new [3; 4; 9])%Z.
Lemma sE_reach : SetReach anyZ sE.
Proof. apply (sr_new _ _ _ [3; 4; 9]%Z); [intros v _; exact Logic.I|]. vm_compute. reflexivity. Qed.
Definition rho0 (i : nat) : set Z := match i with 0 => sA | 1 => sB | _ => sE end%nat.
Definition rho1 (i : nat) : set Z := match i with 0 => sA' | 1 => sB | _ => sE end%nat.
Definition pi0 (j : nat) (v : Z) : bool := (v mod 100 <? 4 + Z.of_nat j)%Z.
Definition pi1 (j : nat) (v : Z) : bool := negb (4 + Z.of_nat j <=? v mod 100)%Z.
Lemma rho0_reach i : SetReach anyZ (rho0 i).
Proof. destruct i as [|[|i]]; [apply sA_reach|apply sB_reach|apply sE_reach]. Qed.
Lemma rho1_reach i : SetReach anyZ (rho1 i).
Proof. destruct i as [|[|i]]; [apply sA'_reach|apply sB_reach|apply sE_reach]. Qed.
Lemma pi0_respects j : respects anyZ (pi0 j).
Proof. intros a b _ _ H. apply Z.eqb_eq in H. unfold pi0. rewrite H. reflexivity. Qed.
Lemma pi1_respects j : respects anyZ (pi1 j).
Proof. intros a b _ _ H. apply Z.eqb_eq in H. unfold pi1. rewrite H. reflexivity. Qed.
Notation x0 := (SVar 0). Notation x1 := (SVar 1). Notation x2 := (SVar 2).
(** What a run gives: its elements, or None for a panic. *)
Definition shown (r : res (set Z)) : option (list Z) := match r with Ok s => match s_elements s with Ok l => Some l | _ => None end | _ => None end.

@@ C65_meaning
Definition e0 : sexp := SWhere 2 (SXor (SUnion x0 x2) (SInter x1 x0)).
Example C65_meaning_case := C65_meaning rho0 pi0 e0 rho0_reach pi0_respects.
Example C65_meaning_run : shown (srun rho0 pi0 e0) = Some [4; 1; 5]%Z.
Proof. vm_compute. reflexivity. Qed.

@@ C65_laws
(** Laws that the truth table proves: commutative, associative, idempotent, distributive and absorption laws, De Morgan's laws for differences,
    symmetric difference as a group, and Where. *)
Definition laws : list (sexp * sexp) := [
  (SUnion x0 x1, SUnion x1 x0); (SInter x0 x1, SInter x1 x0); (SXor x0 x1, SXor x1 x0);
  (SUnion (SUnion x0 x1) x2, SUnion x0 (SUnion x1 x2)); (SInter (SInter x0 x1) x2, SInter x0 (SInter x1 x2)); (SXor (SXor x0 x1) x2, SXor x0 (SXor x1 x2));
  (SUnion x0 x0, x0); (SInter x0 x0, x0); (SXor x0 x0, SEmpty); (SDiff x0 x0, SEmpty); (SUnion x0 SEmpty, x0); (SXor x0 SEmpty, x0); (SDiff x0 SEmpty, x0);
  (SInter x0 (SUnion x1 x2), SUnion (SInter x0 x1) (SInter x0 x2)); (SUnion x0 (SInter x1 x2), SInter (SUnion x0 x1) (SUnion x0 x2));
  (SInter x0 (SXor x1 x2), SXor (SInter x0 x1) (SInter x0 x2)); (SUnion x0 (SInter x0 x1), x0); (SInter x0 (SUnion x0 x1), x0);
  (SDiff x0 (SUnion x1 x2), SInter (SDiff x0 x1) (SDiff x0 x2)); (SDiff x0 (SInter x1 x2), SUnion (SDiff x0 x1) (SDiff x0 x2));
  (SDiff x0 (SDiff x0 x1), SInter x0 x1); (SXor x0 x1, SDiff (SUnion x0 x1) (SInter x0 x1)); (SUnion x0 (SDiff x1 x0), SUnion x0 x1);
  (SWhere 0 (SUnion x0 x1), SUnion (SWhere 0 x0) (SWhere 0 x1)); (SWhere 0 (SDiff x0 x1), SDiff (SWhere 0 x0) x1);
  (SWhere 0 (SWhere 1 x0), SWhere 1 (SWhere 0 x0)); (SWhere 0 (SInter x0 x1), SInter x0 (SWhere 0 x1))].
Example C65_laws_table : forallb (fun l => sameTable 3 2 (fst l) (snd l)) laws = true.
Proof. vm_compute. reflexivity. Qed.
Definition dm1 : sexp := SDiff x0 (SInter x1 x2).
Definition dm2 : sexp := SUnion (SDiff x0 x1) (SDiff x0 x2).
Definition rDm1 : set Z := Eval vm_compute in okOr s_empty (srun rho0 pi0 dm1).
Definition rDm2 : set Z := Eval vm_compute in okOr s_empty (srun rho0 pi0 dm2).
Example C65_laws_case := C65_laws 3 0 dm1 dm2 rho0 pi0 rDm1 rDm2 ltac:(vm_compute; reflexivity) rho0_reach pi0_respects ltac:(vm_compute; reflexivity) ltac:(vm_compute; reflexivity).
Example C65_laws_run : (shown (Ok rDm1), shown (Ok rDm2)) = (Some [1; 5; 9; 2], Some [1; 5; 9; 2])%Z.
Proof. vm_compute. reflexivity. Qed.

@@ C65_only
(** Difference does not commute. *)
Example C65_only_case := C65_only (SDiff x0 x1) (SDiff x1 x0) (fun i => Nat.eqb i 0) (fun _ => false) 7%Z Logic.I ltac:(discriminate).

@@ C65_inclusions
Definition in1 : sexp := SDiff x0 x1.
Definition in2 : sexp := SXor x0 x1.
Definition rIn1 : set Z := Eval vm_compute in okOr s_empty (srun rho0 pi0 in1).
Definition rIn2 : set Z := Eval vm_compute in okOr s_empty (srun rho0 pi0 in2).
Example C65_inclusions_case := C65_inclusions 2 0 in1 in2 rho0 pi0 rIn1 rIn2 ltac:(vm_compute; reflexivity) rho0_reach pi0_respects ltac:(vm_compute; reflexivity) ltac:(vm_compute; reflexivity).
Example C65_inclusions_run : (shown (Ok rIn1), shown (Ok rIn2)) = (Some [1; 5; 9], Some [4; 1; 5; 9; 6])%Z.
Proof. vm_compute. reflexivity. Qed.

@@ C65_operands
Lemma rho01 i : s_equal (rho0 i) (rho1 i) = Ok true.
Proof. destruct i as [|[|i]]; vm_compute; reflexivity. Qed.
Lemma pi01 j v : anyZ v -> pi0 j v = pi1 j v.
Proof. intros _. unfold pi0, pi1. rewrite Z.leb_antisym, negb_involutive. reflexivity. Qed.
Example C65_operands_case := C65_operands e0 rho0 rho1 pi0 pi1 rho0_reach rho1_reach pi0_respects pi1_respects rho01 pi01.
Example C65_operands_run : (shown (srun rho0 pi0 (SUnion x0 x1)), shown (srun rho1 pi1 (SUnion x0 x1))) = (Some [4; 1; 5; 9; 102; 6; 203], Some [4; 1; 309; 5; 102; 6; 203])%Z.
Proof. vm_compute. reflexivity. Qed.

@@ C65_update
Definition uAB : gomap Z Z := Eval vm_compute in okOr m_empty (m_update mA mB).
Definition mE : gomap Z Z := Eval vm_compute in okOr m_empty (m_new [mkKV 6 66; mkKV 3 33; mkKV 1 11])%Z.
Lemma mE_reach : MapReach anyZ anyZ mE.
Proof. apply (mr_new _ _ _ _ _ _ [mkKV 6 66; mkKV 3 33; mkKV 1 11]%Z); [intros; split; exact Logic.I|]. vm_compute. reflexivity. Qed.
Definition uABE : gomap Z Z := Eval vm_compute in okOr m_empty (m_update uAB mE).
Definition uBE : gomap Z Z := Eval vm_compute in okOr m_empty (m_update mB mE).
Definition uA_BE : gomap Z Z := Eval vm_compute in okOr m_empty (m_update mA uBE).
Example C65_update_case := C65_update mA mB mE uAB uABE uBE uA_BE mA_reach mB_reach mE_reach ltac:(vm_compute; reflexivity) ltac:(vm_compute; reflexivity) ltac:(vm_compute; reflexivity) ltac:(vm_compute; reflexivity).

@@ C65_update_keys
Definition kAB : set Z := Eval vm_compute in okOr s_empty (m_keys uAB).
Definition kA : set Z := Eval vm_compute in okOr s_empty (m_keys mA).
Definition kB : set Z := Eval vm_compute in okOr s_empty (m_keys mB).
Definition kU : set Z := Eval vm_compute in okOr s_empty (s_union kA kB).
Example C65_update_keys_case := C65_update_keys mA mB uAB kAB kA kB kU mA_reach mB_reach ltac:(vm_compute; reflexivity) ltac:(vm_compute; reflexivity) ltac:(vm_compute; reflexivity) ltac:(vm_compute; reflexivity) ltac:(vm_compute; reflexivity).
Example C65_update_keys_run : (shown (Ok kA), shown (Ok kB), shown (Ok kAB), shown (Ok kU)) = (Some [1; 5; 9; 102], Some [2; 6; 7], Some [1; 5; 9; 2; 6; 7], Some [1; 5; 9; 2; 6; 7])%Z.
Proof. vm_compute. reflexivity. Qed.

@@ C65_update_merge
Definition gAB : gomap Z Z := Eval vm_compute in okOr m_empty (m_merge mA mB (fun _ _ b => b)).
Example C65_update_merge_case := C65_update_merge mA mB uAB gAB mA_reach mB_reach ltac:(vm_compute; reflexivity) ltac:(vm_compute; reflexivity).

@@ C65_merge_flip
Definition fMinus (_ a b : Z) : Z := (a - b)%Z.
Definition gM : gomap Z Z := Eval vm_compute in okOr m_empty (m_merge mA mB fMinus).
Definition gM' : gomap Z Z := Eval vm_compute in okOr m_empty (m_merge mB mA (fun k a b => fMinus k b a)).
Example C65_merge_flip_case := C65_merge_flip (valok := anyZ) mA mB fMinus gM gM' mA_reach mB_reach (fun _ _ _ _ _ _ _ => eq_refl) (fun _ _ _ _ _ _ => Logic.I) ltac:(vm_compute; reflexivity) ltac:(vm_compute; reflexivity).

@@ C65_merge
Definition fPlus (_ a b : Z) : Z := (a + b)%Z.
Lemma fPlus_assoc (k x y z : Z) : anyZ k -> fPlus k (fPlus k x y) z = fPlus k x (fPlus k y z).
Proof. intros _. unfold fPlus. lia. Qed.
Definition pAB : gomap Z Z := Eval vm_compute in okOr m_empty (m_merge mA mB fPlus).
Definition pABB : gomap Z Z := Eval vm_compute in okOr m_empty (m_merge pAB mB fPlus).
Definition pBB : gomap Z Z := Eval vm_compute in okOr m_empty (m_merge mB mB fPlus).
Definition pA_BB : gomap Z Z := Eval vm_compute in okOr m_empty (m_merge mA pBB fPlus).
Example C65_merge_case := C65_merge (valok := anyZ) mA mB mB fPlus pAB pABB pBB pA_BB mA_reach mB_reach mB_reach (fun _ _ _ _ _ _ _ => eq_refl) (fun _ _ _ _ _ _ => Logic.I) fPlus_assoc ltac:(vm_compute; reflexivity) ltac:(vm_compute; reflexivity) ltac:(vm_compute; reflexivity) ltac:(vm_compute; reflexivity).
Example C65_merge_run : okOr [] (m_entries pABB) = [(1, 10); (5, 50); (9, 90); (102, 422); (6, 120); (7, 140)]%Z.
Proof. vm_compute. reflexivity. Qed.

@@ OneSide
(** A law holds of the results only: one side can panic (C19) where the other has a result. [sC] and [sA] have three elements of one hash each. *)
Definition rho2 (i : nat) : set Z := match i with 0 => sB | 1 => sA | _ => sC end%nat.
Example C65_one_side : sameTable 3 0 (SInter x0 (SUnion x1 x2)) (SUnion (SInter x0 x1) (SInter x0 x2)) = true /\
  shown (srun rho2 pi0 (SInter x0 (SUnion x1 x2))) = None /\ shown (srun rho2 pi0 (SUnion (SInter x0 x1) (SInter x0 x2))) = Some [2; 3]%Z.
Proof. vm_compute. auto. Qed.
