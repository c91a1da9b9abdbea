@@ Preamble
Definition backL : list Z := [3; 5; 2; 9; 5; 1]%Z.
Lemma backL_same e : In e backL <-> In e elA.
Proof. cbn. intuition. Qed.
Definition entA : list (Z * Z) := [(1, 10); (5, 50); (9, 90); (102, 22)]%Z.
Lemma mA_entries : m_entries mA = Ok entA. Proof. vm_compute. reflexivity. Qed.
Definition backE : list (Z * Z) := [(9, 90); (102, 22); (5, 50); (102, 22); (1, 10)]%Z.
Lemma backE_same kv : In kv backE <-> In kv entA.
Proof. cbn. intuition. Qed.
Definition keysA : set Z := Eval vm_compute in okOr s_empty (m_keys mA).
Lemma mA_keys : m_keys mA = Ok keysA. Proof. vm_compute. reflexivity. Qed.
Definition keyElA : list Z := Eval vm_compute in okOr [] (s_elements keysA).
Lemma keysA_elements : s_elements keysA = Ok keyElA. Proof. vm_compute. reflexivity. Qed.
Definition valA (k : Z) : Z := if (k =? 102)%Z then 22%Z else (10 * k)%Z.
Lemma valA_ok k v : Entry mA k v -> valA k = v.
Proof. intros (l & El & H). rewrite mA_entries in El. injection El as <-. cbn in H. repeat destruct H as [H|H]; try contradiction; injection H as <- <-; reflexivity. Qed.
(** The map as [mA] is, but made in another way. *)
Definition mA2 : gomap Z Z := Eval vm_compute in okOr m_empty (m_new (map (fun kv => mkKV (fst kv) (snd kv)) backE)).
Lemma mA2_new : m_new (map (fun kv => mkKV (fst kv) (snd kv)) backE) = Ok mA2. Proof. vm_compute. reflexivity. Qed.
Lemma mA2_reach : MapReach anyZ anyZ mA2.
Proof. refine (mr_new _ _ _ _ _ _ _ _ _ mA2_new). intros kv _. split; exact Logic.I. Qed.
(** It lists its entries in another order, as keys 1, 5 and 9 have the same hash. *)
Definition entA2 : list (Z * Z) := [(9, 90); (5, 50); (1, 10); (102, 22)]%Z.
Lemma mA2_entries : m_entries mA2 = Ok entA2. Proof. vm_compute. reflexivity. Qed.
Lemma mA2_same k v : Entry mA k v <-> Entry mA2 k v.
Proof. unfold Entry. rewrite mA_entries, mA2_entries.
  split; intros (l & El & H); injection El as <-; eexists; (split; [reflexivity|]); cbn in *; intuition.
Qed.
(** The elements of a set that was made again, and whether Equal finds it equal. *)
Definition again (r : res (set Z)) (s : set Z) : res (list Z * bool) := t <- r ;; l <- s_elements t ;; b <- s_equal t s ;; Ok (l, b).
Definition againM (r : res (gomap Z Z)) (m : gomap Z Z) : res (list (Z * Z) * bool) := t <- r ;; l <- m_entries t ;; b <- m_equal t m ;; Ok (l, b).

@@ C76_elements
Example C76_elements_case := C76_elements sA elA backL sA_reach sA_elements backL_same.
Example C76_elements_run : again (s_new backL) sA = Ok ([5; 9; 1; 3; 2]%Z, true).
Proof. vm_compute. reflexivity. Qed.
(** One element short is not enough. *)
Example C76_elements_short : again (s_new [3; 2; 9; 1]%Z) sA = Ok ([9; 1; 3; 2]%Z, false).
Proof. vm_compute. reflexivity. Qed.

@@ C76_ordered
Example C76_ordered_case := C76_ordered sA lessZ sA_reach lessZ_ok.

@@ C76_identity
Example C76_identity_case := C76_identity sA sA_reach.
Example C76_identity_run : (again (s_where sA (fun _ => true)) sA, again (s_map sA (fun v => v)) sA) = (Ok ([1; 5; 9; 2; 3]%Z, true), Ok ([1; 5; 9; 2; 3]%Z, true)).
Proof. vm_compute. reflexivity. Qed.

@@ C76_entries_equal
Example C76_entries_equal_case : m_equal mA mA2 = Ok true := C76_entries_equal mA mA2 mA_reach mA2_reach mA2_same.

@@ C76_entries
Example C76_entries_case := C76_entries mA entA backE mA_reach mA_entries backE_same.
Example C76_entries_run : againM (m_fromGoMap backE) mA = Ok (entA2, true).
Proof. vm_compute. reflexivity. Qed.

@@ C76_fromKeys
Example C76_fromKeys_case := C76_fromKeys mA keysA valA mA_reach mA_keys valA_ok (fun _ _ => Logic.I).
Example C76_fromKeys_run : againM (m_fromKeys keysA valA) mA = Ok (entA, true).
Proof. vm_compute. reflexivity. Qed.

@@ C76_map_identity
Example C76_map_identity_case := C76_map_identity mA keysA keyElA mA_reach mA_keys keysA_elements.
Example C76_map_identity_run : (keyElA, againM (m_project mA keyElA) mA) = ([1; 5; 9; 102]%Z, Ok (entA, true)).
Proof. vm_compute. reflexivity. Qed.
