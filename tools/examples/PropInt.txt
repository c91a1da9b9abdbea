@@ Preamble
(** The types int and uint8, a poor hash function, and a Go map order. *)
Definition tInt : intTy := mkIT true 64.
Definition tUint8 : intTy := mkIT false 8.
Definition hZ (z : Z) (seed : N) : N := (Z.to_N (z mod 3) + seed)%N.
Definition ordI (g : list (Z * N)) : list (Z * N) := rev g.
Lemma ordI_ok g : Permutation (ordI g) g. Proof. apply Permutation_sym, Permutation_rev. Qed.
Lemma tInt_ok : it_ok tInt. Proof. unfold it_ok. simpl. discriminate. Qed.
Lemma tUint8_ok : it_ok tUint8. Proof. unfold it_ok. simpl. discriminate. Qed.
Ltac inInt := repeat split; vm_compute; congruence.
(** {0, 1, 63, 64, 200, -64, -128, MaxInt, MinInt}: seven cells. *)
Definition listA : list Z := [0; 1; 63; 64; 200; -64; -128; 9223372036854775807; -9223372036854775808; 63]%Z.
Definition listB : list Z := [1; 65; 200; 1000; -128]%Z.
Lemma listA_ok i : In i listA -> it_in tInt i /\ fits i.
Proof.
  unfold listA. cbn [In]. intros H. repeat (destruct H as [<-|H]; [split; [inInt|first [left; lia|right; reflexivity]]|]). destruct H.
Qed.
Lemma listB_ok i : In i listB -> it_in tInt i /\ fits i.
Proof.
  unfold listB. cbn [In]. intros H. repeat (destruct H as [<-|H]; [split; [inInt|first [left; lia|right; reflexivity]]|]). destruct H.
Qed.
Definition iA : intSet := Eval vm_compute in okOr is_empty (is_new hZ ordI listA).
Definition iB : intSet := Eval vm_compute in okOr is_empty (is_new hZ ordI listB).
(** [iA] again, from an insertion order without duplicates and another Go map order. *)
Definition iA' : intSet := Eval vm_compute in okOr is_empty (is_new hZ (fun g => g) (rev (removelast listA))).
Lemma iA_reach : IntReach tInt hZ fits iA.
Proof. apply (ir_new tInt hZ fits ordI listA); [apply ordI_ok|apply listA_ok|vm_compute; reflexivity]. Qed.
Lemma iB_reach : IntReach tInt hZ fits iB.
Proof. apply (ir_new tInt hZ fits ordI listB); [apply ordI_ok|apply listB_ok|vm_compute; reflexivity]. Qed.
Lemma in200 : it_in tInt 200. Proof. inInt. Qed.
Lemma in201 : it_in tInt 201. Proof. inInt. Qed.
Lemma fits201 : fits 201. Proof. left. lia. Qed.
@@ C30_reads_partial
Example C30_reads_case := C30_reads_partial (h := hZ) (HI := tInt_ok) iA iA_reach.
Example C30_reads_run : is_elements tInt iA = Ok [200; 0; 1; 63; -9223372036854775808; 9223372036854775807; -128; 64; -64]%Z
  /\ is_count iA = 9%Z /\ is_any tInt iA = Ok 200%Z.
Proof. vm_compute. auto. Qed.
@@ C30_empty_partial
Example C30_empty_case := C30_empty_partial (h := hZ) (HI := tInt_ok).
@@ C30_new_partial
Example C30_new_case := C30_new_partial (h := hZ) (HI := tInt_ok) ordI listA ordI_ok listA_ok.
@@ C30_with_partial
Example C30_with_case := C30_with_partial (h := hZ) (HI := tInt_ok) iA 201%Z iA_reach in201 fits201.
Example C30_with_run : (r <- is_with hZ iA 201 ;; b <- is_has hZ r 201 ;; Ok (is_count r, b)) = Ok (10%Z, true).
Proof. vm_compute. reflexivity. Qed.
@@ C30_without_partial
Example C30_without_case := C30_without_partial (h := hZ) (HI := tInt_ok) iA 200%Z iA_reach in200.
Example C30_without_run : (r <- is_without hZ iA 200 ;; b <- is_has hZ r 200 ;; Ok (is_count r, b)) = Ok (8%Z, false).
Proof. vm_compute. reflexivity. Qed.
@@ C30_union_partial
Example C30_union_case := C30_union_partial (h := hZ) (HI := tInt_ok) iA iB iA_reach iB_reach.
Example C30_union_run : (r <- is_union hZ iA iB ;; Ok (is_count r)) = Ok 11%Z.
Proof. vm_compute. reflexivity. Qed.
@@ C30_intersection_partial
Example C30_intersection_case := C30_intersection_partial (h := hZ) (HI := tInt_ok) iA iB iA_reach iB_reach.
Example C30_intersection_run : (r <- is_intersection hZ iA iB ;; is_elements tInt r) = Ok [200; 1; -128]%Z.
Proof. vm_compute. reflexivity. Qed.
@@ C30_where_partial
Example C30_where_case := C30_where_partial (h := hZ) (HI := tInt_ok) iA Z.even iA_reach.
Example C30_where_run : (r <- is_where tInt hZ iA Z.even ;; is_elements tInt r) = Ok [200; 0; -9223372036854775808; -128; 64; -64]%Z.
Proof. vm_compute. reflexivity. Qed.
@@ C30_map_partial
Lemma mapB_ok i : IntIn hZ iB i -> it_in tInt (i mod 100) /\ fits (i mod 100).
Proof. intros _. pose proof (Z.mod_pos_bound i 100). split; [|left; lia]. unfold it_in. cbn - [Z.modulo]. lia. Qed.
Example C30_map_case := C30_map_partial (h := hZ) (HI := tInt_ok) ordI iB (fun i => i mod 100)%Z ordI_ok iB_reach mapB_ok.
Example C30_map_run : (r <- is_map tInt hZ ordI iB (fun i => i mod 100)%Z ;; is_elements tInt r) = Ok [65; 72; 0; 1]%Z.
Proof. vm_compute. reflexivity. Qed.
@@ C30_isSubsetOf_partial
Example C30_isSubsetOf_case := C30_isSubsetOf_partial (h := hZ) (HI := tInt_ok) iA iB iA_reach iB_reach.
Example C30_isSubsetOf_run : is_isSubsetOf hZ iA iB = Ok false /\ is_isSubsetOf hZ iA iA = Ok true.
Proof. vm_compute. auto. Qed.
@@ C30_equal_partial
Example C30_equal_case := C30_equal_partial (h := hZ) (HI := tInt_ok) iA iB iA_reach iB_reach.
Example C30_equal_run : is_equal hZ iA iB = Ok false /\ is_equal hZ iA iA' = Ok true.
Proof. vm_compute. auto. Qed.
@@ C30_hash_partial
Example C30_hash_case := C30_hash_partial (h := hZ) (HI := tInt_ok) iA iA 7%N iA_reach iA_reach (fun i => conj (fun x => x) (fun x => x)).
@@ C30_unsigned
Definition listU : list Z := [0; 7; 63; 64; 128; 255]%Z.
Definition iU : intSet := Eval vm_compute in okOr is_empty (is_new hZ ordI listU).
Lemma listU_ok i : In i listU -> it_in tUint8 i.
Proof. unfold listU. cbn [In]. intros H. repeat (destruct H as [<-|H]; [inInt|]). destruct H. Qed.
Lemma iU_reach : IntReach tUint8 hZ (fun _ => True) iU.
Proof.
  apply (ir_new tUint8 hZ (fun _ => True) ordI listU); [apply ordI_ok| |vm_compute; reflexivity].
  intros i Hi. split; [apply listU_ok; auto|exact I].
Qed.
Lemma in9 : it_in tUint8 9. Proof. inInt. Qed.
Lemma mapU_ok i : it_in tUint8 i -> it_in tUint8 (i / 2).
Proof. unfold it_in. cbn - [Z.div]. intros [H1 H2]. split; [apply Z.div_pos; lia|]. apply Z.div_lt_upper_bound; lia. Qed.
Example C30_unsigned_case := C30_unsigned (HI := tUint8_ok) iU iU 9%Z listU ordI Z.even (fun i => i / 2)%Z 5%N
  eq_refl iU_reach iU_reach in9 listU_ok ordI_ok mapU_ok.
Example C30_unsigned_run : is_elements tUint8 iU = Ok [255; 0; 7; 63; 64; 128]%Z.
Proof. vm_compute. reflexivity. Qed.
@@ C30_negative
Example C30_negative_case := C30_negative (HI := tInt_ok) iA (-1)%Z iA_reach ltac:(inInt) eq_refl ltac:(discriminate).
@@ C30_refuted
(** The full property is false for signed types: a program that adds -1 to an empty IntSet[int] gets a set
    that denies having -1, counts it each time it is added, is not equal to any correct set, and lists the
    integer 0. *)
Theorem C30_refuted :
  ~ (forall (I : intTy) (h : Z -> N -> N) s, it_ok I -> IntReach I h (fun _ => True) s -> IntAnswers I h s (IntIn h s)).
Proof.
  intros H. destruct (is_with hZ is_empty (-1)) as [s| |] eqn:Es; [|vm_compute in Es; discriminate..].
  destruct (H tInt hZ s tInt_ok) as [_ _ He _].
  { apply (ir_with tInt hZ (fun _ => True) is_empty (-1) s); [constructor|inInt|exact I|exact Es]. }
  vm_compute in Es. injection Es as <-.
  assert (forall i, ~ IntIn hZ {| is_data := {| m_tree := {| t_root := Some (Leaf1 {| e_key := (-1)%Z; e_val := 0%N |}); t_count := 1%Z |} |}; is_cnt := 1%Z |} i) as Hn.
  { intros i Hi. unfold IntIn, is_has, is_locate in Hi. destruct (locateCell i) as [k b]. cbn in Hi.
    destruct k as [|p|[p|p|]]; discriminate. }
  apply He in Hn. vm_compute in Hn. discriminate.
Qed.
Print Assumptions C30_refuted.

Theorem C30_minus_one_refuted :
  exists s1 s2 : intSet,
    is_new hZ ordI [-1]%Z = Ok s1 /\ is_has hZ s1 (-1) = Ok false /\ is_elements tInt s1 = Ok [0%Z] /\
    is_count s1 = 0%Z /\ is_isEmpty s1 = false /\
    is_with hZ s1 (-1) = Ok s2 /\ is_has hZ s2 (-1) = Ok false /\ is_count s2 = 1%Z.
Proof.
  exists (okOr is_empty (is_new hZ ordI [-1]%Z)), (okOr is_empty (s <- is_new hZ ordI [-1]%Z ;; is_with hZ s (-1))).
  vm_compute. auto 10.
Qed.
Print Assumptions C30_minus_one_refuted.
