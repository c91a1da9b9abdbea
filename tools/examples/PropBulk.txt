@@ Preamble
(** Numbers below 64 with different hashes that part on the first two levels. *)
#[local] Instance KN : Key N := {| veq := N.eqb; vhash := fun a seed => wrap 64 (a * 2 ^ 58 + seed) |}.
Definition few64 (a : N) : Prop := (a < 64)%N.
#[local] Instance KN_ok : KeyOk KN few64.
Proof.
  constructor; cbn [veq vhash KN]; intros.
  - apply N.eqb_refl.
  - rewrite N.eqb_sym. auto.
  - apply N.eqb_eq. rewrite N.eqb_eq in *. congruence.
  - apply N.eqb_eq in H1. congruence.
  - apply wrap_lt.
Qed.
(** A set of 40 numbers, a set of two of them and one more, and a set of one of them. *)
Definition bulk : list (cmd N) := CNew :: map (fun i => CAdd 0 (N.of_nat i)) (seq 0 40) ++ [CFinish 0; CNew; CAdd 1 3%N; CAdd 1 39%N; CAdd 1 50%N; CFinish 1; CNew; CAdd 2 7%N; CFinish 2].
Definition bulkH : heap (T := N) := Eval vm_compute in st_heap (reached dbl bulk).
Definition bigS : ptree := Eval vm_compute in nth 0 (st_sets (reached dbl bulk)) emptyPT.
Definition smallS : ptree := Eval vm_compute in nth 1 (st_sets (reached dbl bulk)) emptyPT.
Definition oneS : ptree := Eval vm_compute in nth 2 (st_sets (reached dbl bulk)) emptyPT.
Lemma bulk_noTriple : noTripleHash few64.
Proof.
  assert (Hinv : forallb (fun i => N.eqb (N.shiftr (vhash (N.of_nat i) 0) 58) (N.of_nat i)) (seq 0 64) = true) by (vm_compute; reflexivity).
  assert (H : forall a, few64 a -> N.shiftr (vhash a 0) 58 = a).
  { intros a Ha. rewrite forallb_forall in Hinv. specialize (Hinv (N.to_nat a)). rewrite N2Nat.id in Hinv. apply N.eqb_eq, Hinv. apply in_seq.
    unfold few64 in Ha. lia. }
  intros a b c Ha Hb _ Hab _ _ He _. apply H in Ha, Hb. rewrite He in Ha. rewrite Hb in Ha. subst b. unfold veq, KN in Hab. rewrite N.eqb_refl in Hab. discriminate.
Qed.
Lemma bulk_ok : progOk few64 bulk.
Proof. unfold bulk. cbn [seq map app]. repeat (constructor; [try exact Logic.I; try reflexivity|]). constructor. Qed.
Lemma bulk_heap : st_heap (reached dbl bulk) = bulkH.
Proof. vm_compute. reflexivity. Qed.
Lemma bulk_big : nth_error (st_sets (reached dbl bulk)) 0 = Some bigS.
Proof. vm_compute. reflexivity. Qed.
Lemma bulk_small : nth_error (st_sets (reached dbl bulk)) 1 = Some smallS.
Proof. vm_compute. reflexivity. Qed.
Definition uargs : CombineArgs N := mkCombineArgs NonParallel veq (fun _ b => b).
(** The elements of a set in a heap. *)
Definition elemsIn {T} (h : heap (T := T)) (r : res ptree) : option (list T) :=
  match r with Ok t => option_map (@tel T) (readT treeFuel h t) | _ => None end.
(** How many nodes of a result are not new. *)
Definition oldCount {T} (h h' : heap (T := T)) (r : res ptree) : nat :=
  match r with Ok t => match pt_root t with Some p => length (filter (fun q => Nat.ltb q (length (h_objs h))) (nodes 40 h' p)) | None => 0 end | _ => 0 end.

@@ C61_combine_shares
Definition afterUnion := Eval vm_compute in tH_combine dbl uargs bigS smallS bulkH.
Definition unionS : ptree := Eval vm_compute in match fst afterUnion with Ok t => t | _ => emptyPT end.
Lemma afterUnion_ok : tH_combine dbl uargs bigS smallS bulkH = (Ok unionS, snd afterUnion).
Proof. vm_compute. reflexivity. Qed.
Example C61_combine_shares_case := C61_combine_shares (grow := dbl) bulkH (snd afterUnion) uargs bigS smallS unionS afterUnion_ok.
(** All but five of the nodes of the union are nodes of the operands. *)
Example C61_combine_shares_run : (length (nodes 40 (snd afterUnion) (match pt_root unionS with Some p => p | None => 0%nat end)), oldCount bulkH (snd afterUnion) (Ok unionS)) = (47, 42)%nat.
Proof. vm_compute. reflexivity. Qed.

@@ C61_difference_shares
Definition afterDiff := Eval vm_compute in tH_difference dbl NonParallel bigS smallS bulkH.
Definition diffS : ptree := Eval vm_compute in match fst afterDiff with Ok t => t | _ => emptyPT end.
Lemma afterDiff_ok : tH_difference dbl NonParallel bigS smallS bulkH = (Ok diffS, snd afterDiff).
Proof. vm_compute. reflexivity. Qed.
Example C61_difference_shares_case := C61_difference_shares (grow := dbl) bulkH (snd afterDiff) NonParallel bigS smallS diffS afterDiff_ok.
Example C61_difference_shares_run : (length (nodes 40 (snd afterDiff) (match pt_root diffS with Some p => p | None => 0%nat end)), oldCount bulkH (snd afterDiff) (Ok diffS)) = (44, 41)%nat.
Proof. vm_compute. reflexivity. Qed.

@@ C61_intersection_shares
Definition afterInter := Eval vm_compute in tH_intersection dbl NonParallel bigS smallS bulkH.
Definition interS : ptree := Eval vm_compute in match fst afterInter with Ok t => t | _ => emptyPT end.
Lemma afterInter_ok : tH_intersection dbl NonParallel bigS smallS bulkH = (Ok interS, snd afterInter).
Proof. vm_compute. reflexivity. Qed.
Example C61_intersection_shares_case := C61_intersection_shares (grow := dbl) bulkH (snd afterInter) NonParallel bigS smallS interS afterInter_ok.
Example C61_intersection_shares_run : (elemsIn (snd afterInter) (Ok interS), oldCount bulkH (snd afterInter) (Ok interS)) = (Some [3%N; 39%N], 0%nat).
Proof. vm_compute. reflexivity. Qed.

@@ C61_where_shares
Definition afterWhere := Eval vm_compute in tH_where dbl NonParallel (fun e => (e <? 24)%N) bigS bulkH.
Definition whereS : ptree := Eval vm_compute in match fst afterWhere with Ok t => t | _ => emptyPT end.
Lemma afterWhere_ok : tH_where dbl NonParallel (fun e => (e <? 24)%N) bigS bulkH = (Ok whereS, snd afterWhere).
Proof. vm_compute. reflexivity. Qed.
Example C61_where_shares_case := C61_where_shares (grow := dbl) bulkH (snd afterWhere) NonParallel (fun e => (e <? 24)%N) bigS whereS afterWhere_ok.
(** Three branches are kept as they are, below a new root. *)
Example C61_where_shares_run : (length (nodes 40 (snd afterWhere) (match pt_root whereS with Some p => p | None => 0%nat end)), oldCount bulkH (snd afterWhere) (Ok whereS)) = (28, 27)%nat.
Proof. vm_compute. reflexivity. Qed.

@@ C61_where
Lemma wide_ok : progOk anyZ wide.
Proof. unfold wide. cbn [seq map app]. repeat (constructor; [exact Logic.I|]). constructor. Qed.
Lemma wide_over : h_over (st_heap (reached dbl wide)) = 0%nat.
Proof. vm_compute. reflexivity. Qed.
(** 40 elements in four buckets. *)
Example C61_where_case p := C61_where (E := E0) (vok := anyZ) (grow := dbl) wide 0 wideS NonParallel p wide_ok wide_over wide_set (gaugeOk_NonParallel _).
Example C61_where_run : (allocates (tH_where dbl NonParallel Z.odd wideS) (st_heap (reached dbl wide)), allocates (tH_where dbl NonParallel N.odd bigS) bulkH) = (41, 6)%nat.
Proof. vm_compute. reflexivity. Qed.

@@ C61_combine
Example C61_combine_case := C61_combine (E := E0) (vok := few64) (grow := dbl) bulk 0 1 bigS smallS uargs bulk_noTriple bulk_ok bulk_big bulk_small eq_refl (cfok_rhs (vok := few64)) (gaugeOk_NonParallel _).
(** 40 and 3 elements: five nodes, in either order. *)
Example C61_combine_run : (allocates (tH_combine dbl uargs bigS smallS) bulkH, allocates (tH_combine dbl uargs smallS bigS) bulkH) = (5, 5)%nat.
Proof. vm_compute. reflexivity. Qed.

@@ C61_difference
Example C61_difference_case := C61_difference (E := E0) (vok := few64) (grow := dbl) bulk 0 1 bigS smallS NonParallel bulk_noTriple bulk_ok bulk_big bulk_small (gaugeOk_NonParallel _).
Example C61_difference_run : (allocates (tH_difference dbl NonParallel bigS smallS) bulkH, allocates (tH_difference dbl NonParallel smallS bigS) bulkH) = (3, 4)%nat.
Proof. vm_compute. reflexivity. Qed.

@@ C61_intersection
Example C61_intersection_case := C61_intersection (E := E0) (vok := few64) (grow := dbl) bulk 0 1 bigS smallS NonParallel bulk_noTriple bulk_ok bulk_big bulk_small (gaugeOk_NonParallel _).
Example C61_intersection_run : (allocates (tH_intersection dbl NonParallel bigS smallS) bulkH, allocates (tH_intersection dbl NonParallel smallS bigS) bulkH) = (4, 4)%nat.
Proof. vm_compute. reflexivity. Qed.

@@ C61_where_all
Definition bigV : tree N := Eval vm_compute in match readT treeFuel bulkH bigS with Some u => u | None => emptyTree end.
Lemma bigV_ok : valueOf (reached dbl bulk) bigS bigV.
Proof. vm_compute. reflexivity. Qed.
Lemma bigV_all : forall e, In e (tel bigV) -> (e <? 40)%N = true.
Proof. apply forallb_forall. vm_compute. reflexivity. Qed.
Example C61_where_all_case := C61_where_all (E := E0) (vok := few64) (grow := dbl) bulk 0 bigS bigV NonParallel (fun e => (e <? 40)%N) bulk_noTriple bulk_ok bulk_big bigV_ok (gaugeOk_NonParallel _) bigV_all.
(** A bucket is copied even if every element stays. *)
Example C61_where_all_run : (allocates (tH_where dbl NonParallel (fun e => (e <? 40)%N) bigS) bulkH, allocates (tH_where dbl NonParallel (fun _ => true) wideS) (st_heap (reached dbl wide))) = (0, 51)%nat.
Proof. vm_compute. reflexivity. Qed.
