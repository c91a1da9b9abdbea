@@ Preamble
(** Groups of sA by the remainder by 3; the key 102 is equal to 2 in K0. *)
Definition by3 (v : Z) : Z := (v mod 3)%Z.
Definition gM : gomap Z (set Z) := Eval vm_compute in okOr m_empty (s_groupBy sA by3).
Lemma gM_run : s_groupBy sA by3 = Ok gM. Proof. vm_compute. reflexivity. Qed.
Definition gL : list (Z * set Z) := Eval vm_compute in okOr [] (m_entries gM).
Lemma gL_run : m_entries gM = Ok gL. Proof. vm_compute. reflexivity. Qed.
Definition g2 : set Z := Eval vm_compute in match m_get gM 102%Z with Ok (Some g) => g | _ => s_empty end.
Lemma g2_run : m_get gM 102%Z = Ok (Some g2). Proof. vm_compute. reflexivity. Qed.
Definition gU : set Z := Eval vm_compute in okOr s_empty (s_unionN (map snd gL)).
Lemma gU_run : s_unionN (map snd gL) = Ok gU. Proof. vm_compute. reflexivity. Qed.

@@ C82_where
Example C82_where_case := C82_where (kok := anyZ) sA by3 gM 102%Z g2 sA_reach (fun _ _ => Logic.I) gM_run Logic.I g2_run.

@@ C82_keys
Example C82_keys_case := C82_keys (kok := anyZ) sA by3 gM sA_reach (fun _ _ => Logic.I) gM_run.

@@ C82_count
Example C82_count_case := C82_count (kok := anyZ) sA by3 gM gL sA_reach (fun _ _ => Logic.I) gM_run gL_run.
Example C82_count_run : (s_count sA, map (fun kg => (fst kg, s_count (snd kg))) gL) = (5, [(1, 1); (0, 2); (2, 2)])%Z.
Proof. vm_compute. reflexivity. Qed.

@@ C82_union
Example C82_union_case : s_equal gU sA = Ok true := C82_union (kok := anyZ) sA by3 gM gL gU sA_reach (fun _ _ => Logic.I) gM_run gL_run gU_run.
Example C82_union_run : s_elements gU = Ok [9; 1; 5; 3; 2]%Z.
Proof. vm_compute. reflexivity. Qed.
