@@ Preamble
Local Open Scope string_scope.
(** Integers in decimal; and integers modulo 100 in decimal, which tells apart exactly the unequal ones. *)
#[local] Instance decFmt : Fmt Z := {| fmt_v := decimal; fmt_f := fun _ => decimal |}.
Definition mod100 : Fmt Z := {| fmt_v := fun z => decimal (z mod 100); fmt_f := fun _ z => decimal (z mod 100) |}.
#[local] Instance hexFmt : Fmt N := {| fmt_v := fun n => decimal (Z.of_N n); fmt_f := fun _ n => decimal (Z.of_N n) |}.
Definition fs_plus_v : fstate := mkFS true None "v"%char.
Definition fs_width2 : fstate := mkFS false (Some 2%Z) "v"%char.

Lemma mod100_same a b : anyZ a -> anyZ b -> veq a b = true -> fmt_v (Fmt := mod100) a = fmt_v (Fmt := mod100) b.
Proof. intros _ _ H. cbn in H. apply Z.eqb_eq in H. cbn [fmt_v mod100]. rewrite H. reflexivity. Qed.

Definition texts100 : list string := Eval vm_compute in map (fun i => decimal (Z.of_nat i)) (seq 0 100).
Lemma texts100_nth z : nth_error texts100 (Z.to_nat (z mod 100)) = Some (decimal (z mod 100)).
Proof.
  change texts100 with (map (fun i => decimal (Z.of_nat i)) (seq 0 100)).
  pose proof (Z.mod_pos_bound z 100 ltac:(lia)) as H. rewrite nth_error_map, (nth_error_nth' _ 0%nat) by (rewrite seq_length; lia).
  rewrite seq_nth by lia. cbn [option_map]. rewrite Nat.add_0_l, Z2Nat.id by lia. reflexivity.
Qed.
Lemma mod100_text a : anyZ a -> commaFree (fmt_v (Fmt := mod100) a) /\ fmt_v (Fmt := mod100) a <> "".
Proof.
  intros _. cbn [fmt_v mod100]. pose proof (nth_error_In _ _ (texts100_nth a)) as H. revert H. generalize (decimal (a mod 100)).
  unfold texts100. intros s H. cbn [In] in H. repeat (destruct H as [<-|H]; [repeat split; discriminate|]). destruct H.
Qed.
Lemma texts100_NoDup : NoDup texts100.
Proof. unfold texts100. repeat (constructor; [cbn [In]; intuition discriminate|]). constructor. Qed.
Lemma mod100_inj a b : anyZ a -> anyZ b -> fmt_v (Fmt := mod100) a = fmt_v (Fmt := mod100) b -> veq a b = true.
Proof.
  intros _ _ H. cbn [fmt_v mod100] in H. cbn. apply Z.eqb_eq.
  pose proof (Z.mod_pos_bound a 100 ltac:(lia)). pose proof (Z.mod_pos_bound b 100 ltac:(lia)).
  apply Z2Nat.inj; try lia. pose proof texts100_NoDup as HN. rewrite NoDup_nth_error in HN. apply HN.
  - change (List.length texts100) with 100%nat. lia.
  - rewrite !texts100_nth. congruence.
Qed.
@@ C44_format
Example C44_format_case := C44_format (F := decFmt) sA fs_width2 sA_reach eq_refl ltac:(cbn; lia).
Example C44_format_run : s_format sA fs_width2 = Ok "{1, 5, ...(+3)...}" /\
  s_format sA (mkFS false (Some 5%Z) "v"%char) = Ok "{1, 5, 9, 2, 3}" /\ s_format sA (mkFS true (Some 4%Z) "s"%char) = Ok "{1, 5, 9, 2, ...(+1)...}".
Proof. vm_compute. auto. Qed.
(** A width of 0 leaves a comma without anything before it. *)
Example C44_width0_run : s_format sA (mkFS false (Some 0%Z) "v"%char) = Ok "{, ...(+5)...}".
Proof. vm_compute. reflexivity. Qed.
@@ C44_string
Example C44_string_case := C44_string (F := decFmt) sA sA_reach.
Example C44_string_run : s_string sA = Ok "{1, 5, 9, 2, 3}" /\ s_string (T := Z) s_empty = Ok "{}".
Proof. vm_compute. auto. Qed.
@@ C44_debug_partial
Example C44_debug_case := C44_debug_partial (F := decFmt) sA fs_plus_v sA_reach eq_refl eq_refl.
Example C44_debug_run : s_format sB fs_plus_v = Ok "S⁅⁰⁅⁰⁅⁰⁅⁰⁅⁰⁅⁰⁅⁰⁅⁰⁅⁰⁅⁰⁅⁰⁅⁰⁅⁰⁅⁰⁅⁰⁅⁰⁅⁰⁅⁰⁅⁰⁅⁰⁅⁰‹4› ¹⁅⁰«102,6» ⁴‹203›⁆⁆⁆⁆⁆⁆⁆⁆⁆⁆⁆⁆⁆⁆⁆⁆⁆⁆⁆⁆⁆⁆" /\ t_string (s_tree sC) = Ok "⁅⁰⁅⁰⁅⁰⁅⁰⁅⁰⁅⁰⁅⁰⁅⁰⁅⁰⁅⁰⁅⁰⁅⁰⁅⁰⁅⁰⁅⁰⁅⁰⁅⁰⁅⁰⁅⁰⁅⁰⁅⁰⁅⁴(13,17,21)⁆⁆⁆⁆⁆⁆⁆⁆⁆⁆⁆⁆⁆⁆⁆⁆⁆⁆⁆⁆⁆⁆".
Proof. vm_compute. auto. Qed.
(** tree.go:34-39: the empty tree. *)
Example C44_debug_empty_run : t_string (@emptyTree Z) = Ok "∅".
Proof. vm_compute. reflexivity. Qed.
(** The width pads every branch to at least that many bytes of marks; what the children write does not count. *)
Example C44_debug_width_run : s_format sC (mkFS true (Some 11%Z) "v"%char) = Ok "S⁅⁰⁅⁰⁅⁰⁅⁰⁅⁰⁅⁰⁅⁰⁅⁰⁅⁰⁅⁰⁅⁰⁅⁰⁅⁰⁅⁰⁅⁰⁅⁰⁅⁰⁅⁰⁅⁰⁅⁰⁅⁰⁅⁴(13,17,21)⁆  ⁆  ⁆  ⁆  ⁆  ⁆  ⁆  ⁆  ⁆  ⁆  ⁆  ⁆  ⁆  ⁆  ⁆  ⁆  ⁆  ⁆  ⁆  ⁆  ⁆  ⁆  ".
Proof. vm_compute. reflexivity. Qed.
@@ C44_builder
Definition bT : setBuilder Z := Eval vm_compute in okOr (newSetBuilder 0) (b <- sb_add (newSetBuilder 0) 7%Z ;; sb_add b 3%Z).
Lemma bT_reach : SBReach anyZ bT.
Proof.
  eapply (sbr_add _ _ _ _ 3%Z); [|exact Logic.I|].
  - eapply (sbr_add _ _ _ _ 7%Z); [apply (sbr_new _ _ _ 0%Z)|exact Logic.I|]. vm_compute. reflexivity.
  - vm_compute. reflexivity.
Qed.
Example C44_builder_case := C44_builder (F := decFmt) bT fs_width2 bT_reach eq_refl ltac:(cbn; lia).
Example C44_builder_run : sb_string bT = Ok "{7, 3}".
Proof. vm_compute. reflexivity. Qed.
@@ C44_map_debug_partial
Example C44_map_debug_case := C44_map_debug_partial (FX := decFmt) (FV := decFmt) mA fs_plus_v mA_reach eq_refl eq_refl.
Example C44_map_debug_run : m_format mA fs_plus_v = Ok "M⁅⁰⁅⁰⁅⁰⁅⁰⁅⁰⁅⁰⁅⁰⁅⁰⁅⁰⁅⁰⁅⁰⁅⁰⁅⁰⁅⁰⁅⁰⁅⁰⁅⁰⁅⁰⁅⁰⁅⁰⁅⁰⁅⁴(1:10,5:50,9:90)⁆ ¹‹102:22›⁆⁆⁆⁆⁆⁆⁆⁆⁆⁆⁆⁆⁆⁆⁆⁆⁆⁆⁆⁆⁆".
Proof. vm_compute. reflexivity. Qed.
@@ C45_map
Example C45_map_case := C45_map (FX := decFmt) (FV := decFmt) mA fs_width2 mA_reach eq_refl.
Example C45_map_run : m_format mA fs_width2 = Ok "(1: 10, 5: 50, 9: 90, 102: 22)".
Proof. vm_compute. reflexivity. Qed.
@@ C45_map_string
Example C45_map_string_case := C45_map_string (FX := decFmt) (FV := decFmt) mB mB_reach.
Example C45_map_string_run : m_string mB = Ok "(2: 200, 6: 60, 7: 70)".
Proof. vm_compute. reflexivity. Qed.
@@ C45_keyValue
Example C45_keyValue_case := C45_keyValue (FX := decFmt) (FV := hexFmt) (mkKV 3%Z 7%N) fs_v.
Example C45_keyValue_run : kv_string (mkKV 3%Z 7%N) = "3:7".
Proof. vm_compute. reflexivity. Qed.
@@ C45_intSet
Definition tInt : intTy := mkIT true 64.
Lemma tInt_ok : it_ok tInt. Proof. unfold it_ok. simpl. discriminate. Qed.
Definition hZ (z : Z) (seed : N) : N := (Z.to_N (z mod 3) + seed)%N.
Definition listI : list Z := [0; 1; 63; 64; 200; -64; -128]%Z.
Lemma listI_ok i : In i listI -> it_in tInt i /\ fits i.
Proof.
  unfold listI. cbn [In]. intros H. repeat (destruct H as [<-|H]; [split; [split; vm_compute; congruence|first [left; lia|right; reflexivity]]|]). destruct H.
Qed.
Definition iT : intSet := Eval vm_compute in okOr is_empty (is_new hZ (fun g => g) listI).
Lemma iT_reach : IntReach tInt hZ fits iT.
Proof. apply (ir_new tInt hZ fits (fun g => g) listI); [intros; apply Permutation_refl|apply listI_ok|vm_compute; reflexivity]. Qed.
Example C45_intSet_case := C45_intSet (h := hZ) (HI := tInt_ok) (FZ := decFmt) (FN := hexFmt) iT fs_s iT_reach eq_refl.
Example C45_intSet_run : is_string tInt iT = Ok "[0, 1, 63, 200, 64, -128, -64]" /\ is_format tInt iT fs_plus_v = Ok "(0: 9223372036854775811, 3: 256, 1: 1, -2: 1, -1: 1)".
Proof. vm_compute. auto. Qed.
@@ C46_set
Example C46_set_case := C46_set sA sA_reach.
Example C46_set_run : s_marshal sA = Ok [1; 5; 9; 2; 3]%Z.
Proof. vm_compute. reflexivity. Qed.
@@ C46_array
Lemma mA_answers : exists F, MapAnswers anyZ mA F.
Proof. destruct (SpecMap.c21_answers mA mA_reach) as (F & H & _). exists F. exact H. Qed.
Example C46_array_case : exists l F, m_marshalArray mA = Ok l /\ ListsMap anyZ l F.
Proof.
  destruct mA_answers as (F & HF). destruct (C46_array mA F mA_reach HF) as (l & H1 & H2 & _). exists l, F. auto.
Qed.
Example C46_array_run : m_marshalArray mA = Ok [(1, 10); (5, 50); (9, 90); (102, 22)]%Z.
Proof. vm_compute. reflexivity. Qed.
@@ C46_object
Example C46_object_case : exists g F, m_marshalObject Z.eqb mA = Ok g /\ ListsMap anyZ g F.
Proof.
  destruct mA_answers as (F & HF). destruct (C46_object Z.eqb mA F mA_reach HF Z.eqb_eq) as (g & H1 & _ & H2). exists g, F. auto.
Qed.
Example C46_object_run : m_marshalObject Z.eqb mB = Ok [(2, 200); (6, 60); (7, 70)]%Z.
Proof. vm_compute. reflexivity. Qed.
@@ C47_same_partial
Example C47_same_case := C47_same_partial (F := mod100) sA sA' sA_reach sA'_reach ltac:(vm_compute; reflexivity) mod100_same.
Example C47_same_run : s_string (F := mod100) sA = Ok "{1, 5, 9, 2, 3}" /\ s_string (F := mod100) sA' = Ok "{1, 9, 5, 3, 2}".
Proof. vm_compute. auto. Qed.
@@ C47_leaves_partial
Example C47_leaves_case := C47_leaves_partial (F := mod100) sA sA' fs_width2 sA_reach sA'_reach ltac:(vm_compute; reflexivity) eq_refl ltac:(cbv; discriminate) mod100_same.
Example C47_leaves_run : map (map (fmt_v (Fmt := mod100))) (leaveso (t_root (s_tree sA))) = [["1"; "5"; "9"]; ["2"; "3"]].
Proof. vm_compute. reflexivity. Qed.
@@ C47_single_partial
(** Integers modulo 100 whose hash begins with the last three bits. *)
Definition Ktop : Key Z := {| veq := fun a b => (a mod 100 =? b mod 100)%Z; vhash := fun a seed => (Z.to_N (a mod 100 mod 8) * 2 ^ 61)%N |}.
Lemma Ktop_ok : KeyOk Ktop anyZ.
Proof.
  constructor; cbn.
  - intros a _. apply Z.eqb_refl.
  - intros a b _ _ H. rewrite Z.eqb_sym. exact H.
  - intros a b c _ _ _ H1 H2. apply Z.eqb_eq in H1, H2. apply Z.eqb_eq. congruence.
  - intros a b seed _ _ H. apply Z.eqb_eq in H. rewrite H. reflexivity.
  - intros a seed _. pose proof (Z.mod_pos_bound (a mod 100) 8 ltac:(lia)) as H. revert H. generalize ((a mod 100) mod 8)%Z. intros z Hz. lia.
Qed.
Definition sTop : set Z := Eval vm_compute in okOr s_empty (s_new (K := Ktop) [1; 2; 3; 13; 7]%Z).
Definition sTop' : set Z := Eval vm_compute in okOr s_empty (s_new (K := Ktop) [107; 213; 3; 2; 1]%Z).
Lemma sTop_reach : SetReach (K := Ktop) anyZ sTop.
Proof. apply (sr_new _ _ _ [1; 2; 3; 13; 7]%Z); [intros; exact Logic.I|]. vm_compute. reflexivity. Qed.
Lemma sTop'_reach : SetReach (K := Ktop) anyZ sTop'.
Proof. apply (sr_new _ _ _ [107; 213; 3; 2; 1]%Z); [intros; exact Logic.I|]. vm_compute. reflexivity. Qed.
Lemma sTop_single l : In l (leaveso (t_root (s_tree sTop))) -> List.length l = 1%nat.
Proof. vm_compute. intros H. repeat (destruct H as [<-|H]; [reflexivity|]). destruct H. Qed.
Example C47_single_case : s_format (F := mod100) sTop fs_width2 = s_format (F := mod100) sTop' fs_width2.
Proof. apply (C47_single_partial (K := Ktop) (KO := Ktop_ok)); [exact sTop_reach|exact sTop'_reach|vm_compute; reflexivity|reflexivity|cbv; discriminate|exact mod100_same|exact sTop_single]. Qed.
Example C47_single_run : (s_string (F := mod100) sTop, s_string (F := mod100) sTop') = (Ok "{1, 2, 3, 13, 7}", Ok "{1, 2, 3, 13, 7}").
Proof. vm_compute. reflexivity. Qed.
@@ C47_injective
(** [sD] and the set with the same elements from another history. *)
Definition sD1 : set Z := Eval vm_compute in okOr s_empty (s_new [113; 4; 1]%Z).
Definition sD2 : set Z := Eval vm_compute in okOr s_empty (s_without sD1 4%Z).
Lemma sD2_reach : SetReach anyZ sD2.
Proof.
  eapply (sr_without _ _ _ _ 4%Z); [|exact Logic.I|].
  - apply (sr_new _ _ _ [113; 4; 1]%Z); [intros; exact Logic.I|]. vm_compute. reflexivity.
  - vm_compute. reflexivity.
Qed.
Example C47_injective_case := C47_injective (F := mod100) sD sD2 sD_reach sD2_reach mod100_text mod100_inj ltac:(vm_compute; reflexivity).
@@ C47_object
(** Keys with plain equality. *)
Definition Kplain : Key Z := {| veq := Z.eqb; vhash := fun a seed => wrap 64 (Z.to_N (a mod 4) + seed) |}.
Lemma Kplain_ok : KeyOk Kplain anyZ.
Proof.
  constructor; cbn; intros; rewrite ?Z.eqb_eq in *; try congruence.
  apply wrap_lt.
Qed.
Definition pM1 : gomap Z Z := Eval vm_compute in okOr m_empty (m_new (KX := Kplain) [mkKV 1 10; mkKV 5 50; mkKV 2 20]%Z).
Definition pM2 : gomap Z Z := Eval vm_compute in okOr m_empty (m_new (KX := Kplain) [mkKV 2 20; mkKV 5 50; mkKV 1 10]%Z).
Lemma pM_reach l m : m_new (KX := Kplain) l = Ok m -> MapReach (KX := Kplain) anyZ anyZ m.
Proof. intros H. apply (mr_new _ _ Kplain _ anyZ anyZ l); auto. intros kv _. split; exact Logic.I. Qed.
Lemma Kplain_eq a b : veq (Key := Kplain) a b = true -> a = b.
Proof. cbn. apply Z.eqb_eq. Qed.
Example C47_object_case := C47_object (KO := Kplain_ok) (KV := Kplain) Z.eqb pM1 pM2
  (pM_reach [mkKV 1 10; mkKV 5 50; mkKV 2 20]%Z pM1 ltac:(vm_compute; reflexivity))
  (pM_reach [mkKV 2 20; mkKV 5 50; mkKV 1 10]%Z pM2 ltac:(vm_compute; reflexivity))
  ltac:(vm_compute; reflexivity) Z.eqb_eq (fun a b _ _ => Kplain_eq a b) Kplain_eq.
Example C47_object_run : m_marshalObject Z.eqb pM1 = Ok [(1, 10); (5, 50); (2, 20)]%Z /\
  m_marshalObject Z.eqb pM2 = Ok [(5, 50); (1, 10); (2, 20)]%Z.
Proof. vm_compute. auto. Qed.
@@ C48_returns
Example C48_returns_case := C48_returns 0x8001000000000107%N.
Example C48_returns_run : bi_string 0x8001000000000107%N = Ok [10247; 10241; 126; 126; 126; 126; 10241; 10368]%N /\ bi_string 0 = Ok [].
Proof. vm_compute. auto. Qed.
@@ C48_shows
Definition maskT : N := 0x1000000000030205%N.
Example C48_shows_case := C48_shows maskT eq_refl.
Example C48_shows_run : bi_string maskT = Ok [10245; 10242; 10243; 126; 126; 126; 126; 10248]%N /\
  dots 10245 = [true; false; true; false; false; false; false; false].
Proof. vm_compute. auto. Qed.
@@ C48_injective
Example C48_injective_case : bi_string 0x8001000000000107%N <> bi_string 0x8001000000000106%N.
Proof. intros H. apply C48_injective in H; [discriminate| |]; vm_compute; reflexivity. Qed.
@@ Refutations
(** [%+v] of an empty set panics, so Format does not return for every set. *)
Theorem C44_debug_empty_refuted : ~ (forall s f, SetReach anyZ s -> exists text, s_format s f = Ok text).
Proof. intros H. destruct (H s_empty fs_plus_v) as (text & Ht); [apply sr_empty|]. vm_compute in Ht. discriminate. Qed.
Print Assumptions C44_debug_empty_refuted.

(** Equal sets need not have the same text: NewSet(1, 5) and NewSet(5, 1). *)
Definition s15 : set Z := Eval vm_compute in okOr s_empty (s_new [1; 5]%Z).
Definition s51 : set Z := Eval vm_compute in okOr s_empty (s_new [5; 1]%Z).
Theorem C47_refuted : ~ (forall s t, SetReach anyZ s -> SetReach anyZ t -> s_equal s t = Ok true -> s_string s = s_string t).
Proof.
  intros H. assert (s_string s15 = s_string s51) as Hs.
  { apply H.
    - apply (sr_new _ _ _ [1; 5]%Z); [intros; exact Logic.I|]. vm_compute. reflexivity.
    - apply (sr_new _ _ _ [5; 1]%Z); [intros; exact Logic.I|]. vm_compute. reflexivity.
    - vm_compute. reflexivity. }
  vm_compute in Hs. discriminate.
Qed.
Print Assumptions C47_refuted.
