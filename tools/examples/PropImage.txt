@@ Preamble
(** Halving, and moving by 50; both respect the equality of K0 (equal remainders by 100). *)
Definition halve (v : Z) : Z := ((v mod 100) / 2)%Z.
Definition move (v : Z) : Z := (v + 50)%Z.
Lemma halve_takes : Takes anyZ anyZ halve.
Proof. split; [intros; exact Logic.I|]. intros a b _ _ H. cbn in *. apply Z.eqb_eq in H. unfold halve. rewrite H. apply Z.eqb_refl. Qed.
Lemma move_takes : Takes anyZ anyZ move.
Proof. split; [intros; exact Logic.I|]. intros a b _ _ H. cbn in *. apply Z.eqb_eq in H. apply Z.eqb_eq. unfold move. rewrite Z.add_mod, H, <- Z.add_mod by lia. reflexivity. Qed.
Lemma move_injects : Injects anyZ move.
Proof.
  intros a b _ _ H. cbn in *. apply Z.eqb_eq in H. apply Z.eqb_eq. unfold move in H.
  replace a with ((a + 50) - 50)%Z by lia. replace b with ((b + 50) - 50)%Z by lia. rewrite Zminus_mod, H, <- Zminus_mod. reflexivity.
Qed.
Definition low (v : Z) : bool := (v mod 100 <? 3)%Z.
Lemma low_respects : respects anyZ low.
Proof. intros a b _ _ H. cbn in H. apply Z.eqb_eq in H. unfold low. rewrite H. reflexivity. Qed.
Definition elemsOf (r : res (set Z)) : option (list Z) := match r with Ok s => match s_elements s with Ok l => Some l | _ => None end | _ => None end.
Definition sSub : set Z := Eval vm_compute in okOr s_empty (s_new [9; 101]%Z).
Lemma sSub_new : s_new [9; 101]%Z = Ok sSub. Proof. vm_compute. reflexivity. Qed.
Lemma sSub_reach : SetReach anyZ sSub. Proof. apply (sr_new Z K0 anyZ [9; 101]%Z); [intros; exact Logic.I|exact sSub_new]. Qed.
Lemma sSub_sub : s_isSubsetOf sSub sA = Ok true. Proof. vm_compute. reflexivity. Qed.
Definition sPerm : set Z := Eval vm_compute in okOr s_empty (s_new [3; 102; 109; 5; 1]%Z).
Lemma sPerm_new : s_new [3; 102; 109; 5; 1]%Z = Ok sPerm. Proof. vm_compute. reflexivity. Qed.
Lemma sPerm_reach : SetReach anyZ sPerm. Proof. apply (sr_new Z K0 anyZ [3; 102; 109; 5; 1]%Z); [intros; exact Logic.I|exact sPerm_new]. Qed.
Lemma sPerm_eq : s_equal sPerm sA = Ok true. Proof. vm_compute. reflexivity. Qed.
Definition uAB : set Z := Eval vm_compute in okOr s_empty (s_union sA sB).
Definition hA : set Z := Eval vm_compute in okOr s_empty (s_map sA halve).
Definition hB : set Z := Eval vm_compute in okOr s_empty (s_map sB halve).
Definition hAB : set Z := Eval vm_compute in okOr s_empty (s_union hA hB).
Lemma uAB_run : s_union sA sB = Ok uAB. Proof. vm_compute. reflexivity. Qed.
Lemma hA_run : s_map sA halve = Ok hA. Proof. vm_compute. reflexivity. Qed.
Lemma hB_run : s_map sB halve = Ok hB. Proof. vm_compute. reflexivity. Qed.
Lemma hAB_run : s_union hA hB = Ok hAB. Proof. vm_compute. reflexivity. Qed.

@@ C80_subset
Example C80_subset_case := C80_subset sSub sA halve sSub_reach sA_reach halve_takes sSub_sub.
Example C80_subset_run : (elemsOf (s_map sSub halve), elemsOf (s_map sA halve)) =
  (Some [4; 0], Some [0; 4; 1; 2])%Z.
Proof. vm_compute. reflexivity. Qed.

@@ C80_equal
Example C80_equal_case := C80_equal sPerm sA halve sPerm_reach sA_reach halve_takes sPerm_eq.

@@ C80_union
Example C80_union_case := C80_union sA sB uAB halve hA hB hAB sA_reach sB_reach halve_takes uAB_run hA_run hB_run hAB_run.
Example C80_union_run : (elemsOf (Ok sA), elemsOf (Ok sB), elemsOf (s_map uAB halve), elemsOf (Ok hAB)) =
  (Some [1; 5; 9; 2; 3], Some [4; 102; 6; 203], Some [0; 4; 1; 2; 3], Some [0; 4; 1; 2; 3])%Z.
Proof. vm_compute. reflexivity. Qed.

@@ C80_intersection
Example C80_intersection_case := C80_intersection sA sB halve sA_reach sB_reach halve_takes.
(** Halving loses elements of the intersection; moving does not. *)
Example C80_intersection_run : (elemsOf (i <- s_intersection sA sB ;; s_map i halve), elemsOf (s_intersection hA hB),
  elemsOf (i <- s_intersection sA sB ;; s_map i move), elemsOf (a <- s_map sA move ;; b <- s_map sB move ;; s_intersection a b)) =
  (Some [1], Some [1; 2], Some [52; 53], Some [52; 53])%Z.
Proof. vm_compute. reflexivity. Qed.
Example C80_intersection_move := C80_intersection sA sB move sA_reach sB_reach move_takes.

@@ C80_where
Example C80_where_case := C80_where sA halve low sA_reach halve_takes low_respects.
Example C80_where_run : (elemsOf (s_where hA low), elemsOf (s_where sA (fun v => low (halve v)))) =
  (Some [0; 1; 2], Some [1; 5; 2; 3])%Z.
Proof. vm_compute. reflexivity. Qed.

@@ C80_count
Example C80_count_case := C80_count sA halve sA_reach halve_takes.
Example C80_count_move := C80_count sA move sA_reach move_takes.
Example C80_count_run : (s_count sA, s_count hA, option_map (@length Z) (elemsOf (s_map sA move))) =
  (5%Z, 4%Z, Some 5%nat).
Proof. vm_compute. reflexivity. Qed.

@@ C80_compose
Example C80_compose_case := C80_compose sA halve move sA_reach halve_takes move_takes.
Example C80_compose_run : (elemsOf (r <- s_map sA halve ;; s_map r move), elemsOf (s_map sA (fun v => move (halve v)))) =
  (Some [52; 50; 54; 51], Some [52; 50; 54; 51])%Z.
Proof. vm_compute. reflexivity. Qed.
