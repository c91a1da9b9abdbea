@@ Preamble
Local Open Scope Z_scope.

(** The order of turns: [n] goroutines, the first with more turns than the others. *)
Definition turns (n k : nat) : list nat := flat_map (fun j => [j mod n; 0; (j / 2) mod n])%nat (seq 0 k).
(** The elements of the sets goroutine [i] holds in the end, as it sees them, and its answers. *)
Definition setsOf {T} (c : conf (T := T)) (i : nat) : option (list (option (list T)) * list (res (option T))) :=
  match nth_error (cf_threads c) i with
  | Some (mkThread (Done (Ok s)) own) =>
      Some (map (fun t => option_map (fun u => elemso (t_root u)) (readT treeFuel (view (cf_objs c) (cf_arrs c) own) t)) (hd_sets s), hd_answers s)
  | _ => None
  end.

(** Three goroutines that share the set with 1, 5, 9, 13 (of the same hash) and 2. *)
Definition readers : list (list act) :=
  [[AGet 0 13; ADo (CWithout 0 5); AGet 1 5; AGet 0 5; ADo (CDifference 0 1)];
   [ADo CNew; ADo (CAdd 0 17); ADo (CAdd 0 1); ADo (CAdd 0 9); ADo (CFinish 0); ADo (CIntersection 0 1); ADo (CRemove 0 3)];
   [ADo (CWhere Z.odd 0); ADo CNew; ADo (CAdd 0 21); ADo (CRemove 0 21); AGet 1 2]].
(** Three that share four sets of elements of which no three have the same hash. *)
Definition fewActs : list (list act) :=
  [[ADo (CWith 0 7); AGet 4 7; ADo (CCombine (fun _ b => b) 0 1); ADo (CWithout 3 1)];
   [ADo (CWith 0 7); ADo (CWith 0 106); AGet 5 6; ADo CNew; ADo (CAdd 0 3); ADo (CFinish 0); ADo (CDifference 0 6)];
   [ADo (CIntersection 0 1); AGet 0 6; AGet 4 5; ADo (CWith 3 0); ADo (CWith 3 4)]].
Lemma fewActs_ok : Forall (fun l => progOk fewZ (commands l)) fewActs.
Proof.
  repeat (constructor; [cbn [commands flat_map app]; unfold progOk;
    repeat (constructor; [try exact Logic.I; try (split; vm_compute; congruence); try apply (cfok_rhs (KO := fewOk))|]); constructor|]); constructor.
Qed.
Lemma few1_ok : progOk fewZ few1.
Proof. pose proof few_ok as H. unfold progOk in *. apply Forall_app in H. apply H. Qed.
(** A set with the bucket 1, 5, 9, 13. *)
Definition fourB : list (cmd Z) := [CNew; CAdd 0 1; CAdd 0 5; CAdd 0 9; CAdd 0 13; CFinish 0].
Definition writers : list (list act) := [[ADo (CWith 0 17)]; [ADo (CWith 0 21)]].
(** Reachable memory, by a walk of at most [fuel] levels. *)
Fixpoint walk {T} (fuel : nat) (h : heap (T := T)) (p : nat) : list loc :=
  match fuel with
  | O => []
  | S f =>
      match nth_error (h_objs h) p with
      | Some (OTwig r n) => WObj p :: map (WSlot r) (seq 0 n)
      | Some (OBranch _ d) => WObj p :: flat_map (fun c => match c with Some q => walk f h q | None => [] end) d
      | Some _ => [WObj p]
      | None => []
      end
  end.
Lemma walk_reach {T} fuel (h : heap (T := T)) : forall p w, In w (walk fuel h p) -> reachN h p w.
Proof.
  induction fuel as [|f IH]; cbn [walk]; intros p w Hin; [destruct Hin|]. destruct (nth_error (h_objs h) p) as [[a|a b|r n|m d]|] eqn:Eo.
  - destruct Hin as [<-|[]]. eapply reach_obj; eauto.
  - destruct Hin as [<-|[]]. eapply reach_obj; eauto.
  - destruct Hin as [<-|Hin]; [eapply reach_obj; eauto|]. apply in_map_iff in Hin as (i & <- & Hi). apply in_seq in Hi.
    eapply reach_slot; eauto. apply Hi.
  - destruct Hin as [<-|Hin]; [eapply reach_obj; eauto|]. apply in_flat_map in Hin as ([q|] & Hq & Hw); [|destruct Hw].
    eapply reach_child; eauto.
  - destruct Hin.
Qed.
Lemma loc_dec (x y : loc) : {x = y} + {x <> y}.
Proof. decide equality; apply Nat.eq_dec. Defined.
Lemma walk_tree {T} (h : heap (T := T)) t p w : pt_root t = Some p -> existsb (fun x => if loc_dec x w then true else false) (walk 30 h p) = true ->
  reachT h t w.
Proof.
  intros Hp Hw. exists p. split; auto. apply (walk_reach 30). apply existsb_exists in Hw as (x & Hx & Ex). destruct (loc_dec x w); [subst; auto|discriminate].
Qed.
(** The last slot of the bucket of the set that [build] makes. *)
Lemma slotB : reachT (st_heap (reached dbl build)) setB (WSlot 23 3).
Proof. apply (walk_tree _ _ 3%nat); vm_compute; reflexivity. Qed.
Lemma objB : reachT (st_heap (reached dbl build)) bldB (WObj 71).
Proof. apply (walk_tree _ _ 71%nat); vm_compute; reflexivity. Qed.
Lemma objF : reachT (st_heap (reached dbl few1)) setF (WObj 91).
Proof. apply (walk_tree _ _ 91%nat); vm_compute; reflexivity. Qed.
@@ C52_builder
Example C52_builder_case := C52_builder (grow := dbl) build (CAdd 1 4) 0 setB (WSlot 23 3) eq_refl eq_refl slotB.
(** The builder replaces 4 in place. *)
Example C52_builder_run :
  written (st_heap (reached dbl build)) (st_heap (reached dbl (build ++ [CAdd 1 4]))) = [WObj 71] /\
  written (st_heap (reached dbl build)) (st_heap (reached dbl (build ++ [CRemove 1 4]))) = [].
Proof. vm_compute. split; reflexivity. Qed.
@@ C52_others_partial
Example C52_others_partial_case := C52_others_partial (grow := dbl) build (CWithout 0 5) 0 setB (WSlot 23 3) eq_refl eq_refl slotB.
(** Without assigns to a slot of the new bucket: there were 24 arrays. *)
Example C52_others_partial_run :
  written (st_heap (reached dbl build)) (st_heap (reached dbl (build ++ [CWithout 0 5]))) = [WSlot 24 1] /\
  length (h_arrs (st_heap (reached dbl build))) = 24%nat.
Proof. vm_compute. split; reflexivity. Qed.
@@ C52_builders_apart
Example C52_builders_apart_case := C52_builders_apart (grow := dbl) build (CWith 0 17) 1 bldB (WObj 71) eq_refl eq_refl objB.
Example C52_builders_apart_run :
  written (st_heap (reached dbl build)) (st_heap (reached dbl (build ++ [CWith 0 17]))) = [WSlot 23 4].
Proof. vm_compute. reflexivity. Qed.
@@ C52_get
Example C52_get_case := C52_get (st_heap (reached dbl build)) setB 13.
Example C52_get_run : fst (tH_get setB 13 (st_heap (reached dbl build))) = Ok (Some 13).
Proof. vm_compute. reflexivity. Qed.
@@ C52_quiet_partial
Example C52_quiet_partial_case := C52_quiet_partial (grow := dbl) build readers (turns 3 1600) 1 _ eq_refl eq_refl.
Example C52_quiet_partial_run :
  let c := interleave (turns 3 1600) (goroutines dbl (reached dbl build) readers) in
  setsOf c 0 = Some ([Some [1; 5; 9; 13; 2]; Some [1; 13; 9; 2]; Some [5]], [Ok (Some 13); Ok None; Ok (Some 5)]) /\
  setsOf c 1 = Some ([Some [1; 5; 9; 13; 2]; Some [17; 1; 9]; Some [1; 9]], []) /\
  setsOf c 2 = Some ([Some [1; 5; 9; 13; 2]; Some [1; 5; 9; 13]], [Ok None]).
Proof. vm_compute. repeat split. Qed.
@@ C52_quiet_ends_partial
Lemma quiet_turns : (work dbl (reached dbl build) (nth 1 readers []) <= count_occ Nat.eq_dec (turns 3 1600) 1)%nat.
Proof. apply Nat.leb_le. vm_compute. reflexivity. Qed.
Example C52_quiet_ends_partial_case := C52_quiet_ends_partial (grow := dbl) build readers (turns 3 1600) 1 _ eq_refl eq_refl quiet_turns.
Example C52_quiet_ends_partial_run : map (work dbl (reached dbl build)) readers = [637; 506; 379]%nat.
Proof. vm_compute. reflexivity. Qed.
@@ C52_no_overwrite_partial
Lemma build_ok : progOk anyZ build.
Proof. anyOk. Qed.
Lemma build_over : h_over (st_heap (reached dbl (build ++ [CWith 0 17]))) = 0%nat.
Proof. vm_compute. reflexivity. Qed.
(** One With from a set with spare slots in its bucket. *)
Example C52_no_overwrite_partial_case := C52_no_overwrite_partial (grow := dbl) (vok := anyZ) build (CWith 0 17) 0 setB (WSlot 23 3) build_ok build_over
  eq_refl slotB.
Example C52_no_overwrite_partial_run :
  written (st_heap (reached dbl build)) (st_heap (reached dbl (build ++ [CWith 0 17]))) = [WSlot 23 4].
Proof. vm_compute. reflexivity. Qed.
@@ C52_new_partial
Lemma few_new : progOk fewZ (few1 ++ [CWith 0 7]).
Proof. unfold progOk. apply Forall_app. split; [apply few1_ok|]. constructor; [split; vm_compute; congruence|constructor]. Qed.
Lemma few_written : In (WObj 116) (written (st_heap (reached dbl few1)) (st_heap (reached dbl (few1 ++ [CWith 0 7])))).
Proof. vm_compute. left. reflexivity. Qed.
Example C52_new_partial_case := C52_new_partial (grow := dbl) (KO := fewOk) few1 (CWith 0 7) (WObj 116) few_noTriple few_new eq_refl few_written.
Example C52_new_partial_run : written (st_heap (reached dbl few1)) (st_heap (reached dbl (few1 ++ [CWith 0 7]))) = [WObj 116; WObj 116; WObj 116] /\
  length (h_objs (st_heap (reached dbl few1))) = 116%nat.
Proof. vm_compute. split; reflexivity. Qed.
@@ C52_hash_partial
Example C52_hash_partial_case := C52_hash_partial (grow := dbl) (KO := fewOk) few1 fewActs (turns 3 1600) 1 _ few_noTriple few1_ok fewActs_ok eq_refl.
Example C52_hash_partial_run :
  let c := interleave (turns 3 1600) (goroutines dbl (reached dbl few1) fewActs) in
  setsOf c 0 = Some (map Some [[1; 5; 2; 3]; [1; 5; 2; 6; 3]; [106; 7]; [1; 5; 3]; [1; 5; 2; 3; 7]; [1; 5; 2; 6; 3]; [5; 3]], [Ok (Some 7)]) /\
  setsOf c 1 = Some (map Some [[1; 5; 2; 3]; [1; 5; 2; 6; 3]; [106; 7]; [1; 5; 3]; [1; 5; 2; 3; 7]; [1; 5; 2; 106; 3]; [3]; [1; 5; 2]], [Ok (Some 106)]) /\
  setsOf c 2 = Some (map Some [[1; 5; 2; 3]; [1; 5; 2; 6; 3]; [106; 7]; [1; 5; 3]; [1; 5; 2; 3]; [0; 1; 5; 3]; [4; 1; 5; 3]], [Ok None; Ok (Some 5)]).
Proof. vm_compute. repeat split. Qed.
@@ C52_hash_ends_partial
Lemma hash_turns : (work dbl (reached dbl few1) (nth 2 fewActs []) <= count_occ Nat.eq_dec (turns 3 1600) 2)%nat.
Proof. apply Nat.leb_le. vm_compute. reflexivity. Qed.
Example C52_hash_ends_partial_case := C52_hash_ends_partial (grow := dbl) (KO := fewOk) few1 fewActs (turns 3 1600) 2 _ few_noTriple few1_ok fewActs_ok eq_refl hash_turns.
Example C52_hash_ends_partial_run : map (work dbl (reached dbl few1)) fewActs = [326; 455; 500]%nat.
Proof. vm_compute. reflexivity. Qed.
@@ C52_hash_values_partial
Example C52_hash_values_partial_case := C52_hash_values_partial (grow := dbl) (KO := fewOk) few1 fewActs (turns 3 1600) 1 _ few_noTriple few1_ok fewActs_ok eq_refl.
Example C52_hash_values_partial_run :
  let v := palone (nth 1 fewActs []) (ps_sets (prun few1 pinitial)) in
  map (fun u => elemso (t_root u)) (ps_sets (fst v)) =
    [[1; 5; 2; 3]; [1; 5; 2; 6; 3]; [106; 7]; [1; 5; 3]; [1; 5; 2; 3; 7]; [1; 5; 2; 106; 3]; [3]; [1; 5; 2]] /\ snd v = [Ok (Some 106)].
Proof. vm_compute. split; reflexivity. Qed.
@@ Refutations
(** Two goroutines call With on the same set: both assign to the same slot of the bucket of the existing set, a data race. *)
Theorem C52_race_refuted :
  let st := reached dbl fourB in
  exists w, In w (written (st_heap st) (st_heap (step dbl st (CWith 0 17)))) /\ In w (written (st_heap st) (st_heap (step dbl st (CWith 0 21)))) /\
    ~ newFrom (length (h_objs (st_heap st))) (length (h_arrs (st_heap st))) w.
Proof.
  exists (WSlot 23 4). split; [vm_compute; left; reflexivity|]. split; [vm_compute; left; reflexivity|].
  replace (length (h_arrs (st_heap (reached dbl fourB)))) with 24%nat by (vm_compute; reflexivity). cbn. lia.
Qed.
Print Assumptions C52_race_refuted.

(** One after the other or alternating, the goroutine that added 17 ends with a set that has 21 and not 17. *)
Theorem C52_refuted :
  let c := interleave (repeat 0 51 ++ repeat 1 51)%nat (goroutines dbl (reached dbl fourB) writers) in
  let d := interleave (turns 2 99) (goroutines dbl (reached dbl fourB) writers) in
  setsOf c 0 = Some ([Some [1; 5; 9; 13]; Some [1; 5; 9; 13; 21]], []) /\
  setsOf d 0 = Some ([Some [1; 5; 9; 13]; Some [1; 5; 9; 13; 21]], []) /\
  map (fun u => elemso (t_root u)) (ps_sets (fst (palone (nth 0 writers []) (ps_sets (prun fourB pinitial))))) = [[1; 5; 9; 13]; [1; 5; 9; 13; 17]].
Proof. vm_compute. repeat split. Qed.
Print Assumptions C52_refuted.
