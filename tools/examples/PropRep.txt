@@ Preamble
(** Integers are equal when they agree modulo 100; the hashes are 0 to 3. 1, 4 and 5 have the hashes 1, 0 and 1, which differ from 2 and 3
    on the last but one level. *)
Definition sR : set Z := Eval vm_compute in okOr s_empty (s_new [1; 4; 5])%Z.
Lemma sR_reach : SetReach anyZ sR.
Proof. apply (sr_new _ _ _ [1; 4; 5]%Z); [intros v _; exact Logic.I|]. vm_compute. reflexivity. Qed.
Definition tR : set Z := Eval vm_compute in okOr s_empty (s_new [101; 2; 3; 6; 7])%Z.
Lemma tR_reach : SetReach anyZ tR.
Proof. apply (sr_new _ _ _ [101; 2; 3; 6; 7]%Z); [intros v _; exact Logic.I|]. vm_compute. reflexivity. Qed.
Definition uR : set Z := Eval vm_compute in okOr s_empty (s_new [201; 202])%Z.
Lemma uR_reach : SetReach anyZ uR.
Proof. apply (sr_new _ _ _ [201; 202]%Z); [intros v _; exact Logic.I|]. vm_compute. reflexivity. Qed.
Definition shown (r : res (set Z)) : option (list Z) := match r with Ok s => match s_elements s with Ok l => Some l | _ => None end | _ => None end.
Definition shownMap (r : res (gomap Z Z)) : option (list (Z * Z)) :=
  match r with Ok m => match m_entries m with Ok l => Some l | _ => None end | _ => None end.

@@ C68_new
Example C68_new_case := C68_new (KO := K0_ok) [1; 2; 101; 3; 201]%Z ltac:(intros v _; exact Logic.I).
Example C68_new_run : shown (s_new [1; 2; 101; 3; 201]%Z) = Some [201; 2; 3]%Z.
Proof. vm_compute. reflexivity. Qed.

@@ C68_intersection_partial
Example C68_intersection_case := C68_intersection_partial sR tR [4; 1; 5]%Z [101; 2; 6; 3; 7]%Z sR_reach tR_reach
  ltac:(vm_compute; reflexivity) ltac:(vm_compute; reflexivity).
(** 101 is alone in its subtree of [tR] on the last level but [sR] has three elements there. *)
Example C68_intersection_sooner : Sooner [4; 1; 5]%Z [101; 2; 6; 3; 7]%Z 1%Z.
Proof. exists 21%nat. vm_compute. auto 10 using le_n, le_S. Qed.
Example C68_intersection_run : shown (s_intersection sR tR) = Some [101]%Z.
Proof. vm_compute. reflexivity. Qed.

@@ C68_intersection_refuted
(** That Intersection keeps the elements of the smaller set, or those of the receiver, is refuted: the result has the larger set's 101
    in place of the 1 of [sR]. branch.Intersection with a leaf as its argument (branch.go:194-197) gives the leaf's elements. *)
Theorem C68_intersection_refuted :
  ~ (forall s t r : set Z, SetReach anyZ s -> SetReach anyZ t -> (s_count s <= s_count t)%Z -> s_intersection s t = Ok r ->
       forall e, Holds r e -> Holds s e).
Proof.
  intros H.
  assert (H1 : exists r, s_intersection sR tR = Ok r /\ Holds r 101%Z).
  { eexists. split; [vm_compute; reflexivity|]. exists [101%Z]. split; [vm_compute; reflexivity|left; reflexivity]. }
  destruct H1 as (r & E1 & H1). specialize (H sR tR r sR_reach tR_reach ltac:(vm_compute; discriminate) E1 101%Z H1).
  destruct H as (l & El & Hl). vm_compute in El. injection El as <-. simpl in Hl. intuition discriminate.
Qed.
Print Assumptions C68_intersection_refuted.

@@ C68_intersection_two_partial
Example C68_intersection_two_case := C68_intersection_two_partial uR tR uR_reach tR_reach ltac:(vm_compute; discriminate) ltac:(vm_compute; discriminate).
Example C68_intersection_two_run : shown (s_intersection uR tR) = Some [201; 202]%Z.
Proof. vm_compute. reflexivity. Qed.

@@ C68_intersection_swap_partial
Example C68_intersection_swap_case := C68_intersection_swap_partial sR tR sR_reach tR_reach ltac:(vm_compute; discriminate).
Example C68_intersection_swap_run : shown (s_intersection tR sR) = Some [101]%Z.
Proof. vm_compute. reflexivity. Qed.

@@ C68_newMap
Example C68_newMap_case := C68_newMap (KO := K0_ok) [mkKV 1 10; mkKV 2 20; mkKV 101 30]%Z ltac:(intros v _; exact Logic.I).
Example C68_newMap_run : shownMap (m_new [mkKV 1 10; mkKV 2 20; mkKV 101 30]%Z) = Some [(101, 30); (2, 20)]%Z.
Proof. vm_compute. reflexivity. Qed.

@@ C68_update
Definition mU : gomap Z Z := Eval vm_compute in okOr m_empty (m_update mA mB).
Example C68_update_case := C68_update mA mB mU mA_reach mB_reach ltac:(vm_compute; reflexivity).
Example C68_update_run : shownMap (m_update mA mB) = Some [(1, 10); (5, 50); (9, 90); (2, 200); (6, 60); (7, 70)]%Z.
Proof. vm_compute. reflexivity. Qed.

@@ C68_merge
Definition minus (_ a b : Z) : Z := (a - b)%Z.
Definition mM : gomap Z Z := Eval vm_compute in okOr m_empty (m_merge mA mB minus).
Example C68_merge_case := C68_merge mA mB minus mM mA_reach mB_reach ltac:(vm_compute; reflexivity).
Example C68_merge_run : shownMap (m_merge mA mB minus) = Some [(1, 10); (5, 50); (9, 90); (102, -178); (6, 60); (7, 70)]%Z.
Proof. vm_compute. reflexivity. Qed.

@@ C68_project
Example C68_project_case := C68_project mA [101; 2; 301; 77]%Z mA_reach ltac:(intros v _; exact Logic.I).
Example C68_project_run : shownMap (m_project mA [101; 2; 301; 77]%Z) = Some [(301, 10); (2, 22)]%Z.
Proof. vm_compute. reflexivity. Qed.

@@ C68_setMap
Definition half (v : Z) : Z := (v / 2 + 100 * v)%Z.
Example C68_setMap_case := C68_setMap (KUO := K0_ok) sA half [1; 5; 9; 2; 3]%Z sA_reach ltac:(intros e _; exact Logic.I) ltac:(vm_compute; reflexivity).
Example C68_setMap_run : shown (s_map sA half) = Some [100; 904; 301; 502]%Z.
Proof. vm_compute. reflexivity. Qed.

@@ C68_values
Definition mV : gomap Z Z := Eval vm_compute in okOr m_empty (m_new [mkKV 1 7; mkKV 2 107; mkKV 3 8; mkKV 4 207])%Z.
Lemma mV_reach : MapReach anyZ anyZ mV.
Proof. apply (mr_new _ _ _ _ _ _ [mkKV 1 7; mkKV 2 107; mkKV 3 8; mkKV 4 207]%Z); [intros kv _; split; exact Logic.I|]. vm_compute. reflexivity. Qed.
Example C68_values_case := C68_values (KVO := K0_ok) mV [(1, 7); (4, 207); (2, 107); (3, 8)]%Z mV_reach ltac:(vm_compute; reflexivity).
Example C68_values_run : shown (m_values mV) = Some [107; 8]%Z.
Proof. vm_compute. reflexivity. Qed.
