(** * PropHeap: builders and sets on the heap (C17, C18).

    Generated by tools/genprops.py from SpecHeap.v and tools/examples/PropHeap.txt.
    Every theorem is followed by a case that meets its hypotheses. *)
From Verif Require Import Base Bits Env EnvFacts Node NodeWf NodeAdd Iter Tree SetApi MapApi HeapModel HeapProg HeapProgSim HeapQuiet SpecHeap ExampleData.

Local Open Scope Z_scope.

(** Growth of the capacity by doubling, as the Go runtime does for small slices, and growth to just what is needed. *)
Definition dbl (cap need : nat) : nat := (2 * cap)%nat.
Definition exact (cap need : nat) : nat := need.

(** The elements of the [i]-th set; what its Get finds. *)
Definition elemsAt {T} (st : state) (i : nat) : option (option (list T)) :=
  option_map (fun t => option_map (fun u => elemso (t_root u)) (readT treeFuel (st_heap st) t)) (nth_error (st_sets st) i).
Definition getAt {T} {K : Key T} (st : state) (i : nat) (v : T) : option (res (option T)) :=
  option_map (fun t => fst (tH_get t v (st_heap st))) (nth_error (st_sets st) i).

(** Two builders; 1, 5, 9 and 13 share their hash. The second builder is in use when the first is finished. *)
Definition build : list (cmd Z) :=
  [CNew; CNew; CAdd 0 1; CAdd 0 5; CAdd 1 4; CAdd 0 9; CAdd 0 13; CAdd 0 2; CFinish 0; CAdd 1 8].
Definition later : list (cmd Z) :=
  [CAdd 0 17; CAdd 0 1; CAdd 0 5; CAdd 0 9; CRemove 0 5; CAdd 1 12; CRemove 1 4; CFinish 1; CNew; CAdd 2 6; CFinish 0; CAdd 0 7].
Definition setB : ptree := Eval vm_compute in nth 0 (st_sets (reached dbl build)) emptyPT.
Definition bldB : ptree := Eval vm_compute in nth 1 (st_builders (reached dbl build)) emptyPT.
Definition treeB : tree Z := Eval vm_compute in
  match readT treeFuel (st_heap (reached dbl build)) setB with Some u => u | None => emptyTree end.
Lemma anyOk (cs : list (cmd Z)) : Forall (fun c => match c with CCombine f _ _ => cfok (vok := anyZ) f | _ => True end) cs -> progOk anyZ cs.
Proof.
  intros H. apply Forall_forall. intros c Hc. eapply Forall_forall in H; [|exact Hc]. destruct c; try exact H; exact Logic.I.
Qed.
Ltac anyOk := apply anyOk; repeat (constructor; [try exact Logic.I; try apply (cfok_rhs (vok := anyZ))|]); constructor.

(** Integers of which at most two share a hash. *)
Definition fewZ (z : Z) : Prop := 0 <= z mod 100 < 8.
Lemma fewOk : KeyOk K0 fewZ.
Proof.
  destruct K0_ok as [H1 H2 H3 H4 H5]. constructor; intros.
  - apply H1. exact Logic.I.
  - apply H2; auto; exact Logic.I.
  - apply (H3 a b c); auto; exact Logic.I.
  - apply H4; auto; exact Logic.I.
  - apply H5. exact Logic.I.
Qed.
Lemma K0_hash a : vhash (Key := K0) a 0 = Z.to_N (a mod 4).
Proof.
  cbn. rewrite N.add_0_r. unfold wrap. apply N.mod_small. pose proof (Z.mod_pos_bound a 4 ltac:(lia)).
  apply N2Z.inj_lt. rewrite Z2N.id by lia. change (Z.of_N (2 ^ 64)) with (2 ^ 64). lia.
Qed.
Lemma few_noTriple : noTripleHash fewZ.
Proof.
  intros a b c Ha Hb Hc H1 H2 H3 E1 E2. rewrite !K0_hash in *. unfold fewZ in *. cbn in H1, H2, H3.
  apply Z.eqb_neq in H1, H2, H3.
  assert (Hm : forall x, x mod 4 = (x mod 100) mod 4).
  { intros x. pose proof (Z.div_mod x 100 ltac:(lia)) as Hx.
    rewrite Hx at 1. replace (100 * (x / 100) + x mod 100) with (x mod 100 + (25 * (x / 100)) * 4) by lia.
    apply Z.mod_add. lia. }
  assert (Hb4 : forall x, 0 <= x mod 4 < 4) by (intros x; apply Z.mod_pos_bound; lia).
  apply Z2N.inj in E1; try apply Hb4. apply Z2N.inj in E2; try apply Hb4.
  rewrite (Hm a), (Hm b) in E1. rewrite (Hm a), (Hm c) in E2.
  set (x := a mod 100) in *. set (y := b mod 100) in *. set (z := c mod 100) in *. clearbody x y z. clear Hm Hb4.
  Z.to_euclidean_division_equations. lia.
Qed.
(** Sets made with With, Union, Intersection, Difference and Where from a built set. *)
Definition few1 : list (cmd Z) :=
  [CNew; CAdd 0 1; CAdd 0 5; CAdd 0 2; CAdd 0 3; CFinish 0; CWith 0 6; CNew; CAdd 1 106; CAdd 1 7; CFinish 1; CWithout 0 2].
Definition few2 : list (cmd Z) :=
  [CWith 0 106; CWith 1 7; CCombine (fun _ b => b) 0 2; CIntersection 1 2; CDifference 1 2; CWhere Z.odd 1; CAdd 0 4; CWith 1 0; CWith 1 4].
Definition setF : ptree := Eval vm_compute in nth 1 (st_sets (reached dbl few1)) emptyPT.
Lemma few_ok : progOk fewZ (few1 ++ few2).
Proof.
  repeat (constructor; [try exact Logic.I; try (split; vm_compute; congruence); try apply (cfok_rhs (KO := fewOk))|]); constructor.
Qed.

Local Open Scope Z_scope.

Theorem C17_isolated : forall {E : Env} {T : Type} {K : Key T} {grow : nat -> nat -> nat}
    (cs cs' : list (cmd T)) i t,
  forallb builderCmd cs' = true -> nth_error (st_sets (reached grow cs)) i = Some t ->
  nth_error (st_sets (reached grow (cs ++ cs'))) i = Some t /\
  unchanged (st_heap (reached grow cs)) (st_heap (reached grow (cs ++ cs'))) t.
Proof. exact @c17_isolated. Qed.
Print Assumptions C17_isolated.
Example C17_isolated_case := C17_isolated (grow := dbl) build later 0 setB eq_refl eq_refl.
(** The first builder is used again with the same colliding elements; the set it returned stays as it was. *)
Example C17_isolated_run :
  elemsAt (reached dbl build) 0 = Some (Some [1; 5; 9; 13; 2]) /\
  elemsAt (reached dbl (build ++ later)) 0 = Some (Some [1; 5; 9; 13; 2]) /\
  elemsAt (reached dbl (build ++ later)) 2 = Some (Some [17; 1; 9]).
Proof. vm_compute. repeat split. Qed.

Theorem C17_get : forall {E : Env} {T : Type} {K : Key T} {grow : nat -> nat -> nat}
    (cs cs' : list (cmd T)) i t u v,
  forallb builderCmd cs' = true -> nth_error (st_sets (reached grow cs)) i = Some t -> valueOf (reached grow cs) t u ->
  tH_get t v (st_heap (reached grow cs)) = (t_get u v, st_heap (reached grow cs)) /\
  tH_get t v (st_heap (reached grow (cs ++ cs'))) = (t_get u v, st_heap (reached grow (cs ++ cs'))).
Proof. exact @c17_get. Qed.
Print Assumptions C17_get.
Example C17_get_case := C17_get (grow := dbl) build later 0 setB treeB 13 eq_refl eq_refl ltac:(vm_compute; reflexivity).
Example C17_get_run : getAt (reached dbl (build ++ later)) 0 113 = Some (Ok (Some 13)) /\ getAt (reached dbl (build ++ later)) 0 17 = Some (Ok None).
Proof. vm_compute. split; reflexivity. Qed.

Theorem C17_builder : forall {E : Env} {T : Type} {K : Key T} {grow : nat -> nat -> nat}
    (cs cs' : list (cmd T)) b t,
  forallb (fun c => negb (usesBuilder b c)) cs' = true -> nth_error (st_builders (reached grow cs)) b = Some t ->
  nth_error (st_builders (reached grow (cs ++ cs'))) b = Some t /\
  unchanged (st_heap (reached grow cs)) (st_heap (reached grow (cs ++ cs'))) t.
Proof. exact @c17_builder. Qed.
Print Assumptions C17_builder.
(** While builder 1 holds 4 and 8, the set of builder 0 is extended twice. *)
Example C17_builder_case := C17_builder (grow := dbl) build [CWith 0 17; CWith 0 21; CAdd 0 4; CNew; CWith 1 8] 1
  bldB eq_refl eq_refl.
Example C17_builder_run :
  elemsAt (reached dbl (build ++ [CWith 0 17; CWith 0 21; CAdd 0 4; CNew; CWith 1 8; CFinish 1])) 4 = Some (Some [4; 8]).
Proof. vm_compute. reflexivity. Qed.

Theorem C18_others_partial : forall {E : Env} {T : Type} {K : Key T} {grow : nat -> nat -> nat}
    (cs cs' : list (cmd T)) i t,
  forallb quietCmd cs' = true -> nth_error (st_sets (reached grow cs)) i = Some t ->
  nth_error (st_sets (reached grow (cs ++ cs'))) i = Some t /\
  unchanged (st_heap (reached grow cs)) (st_heap (reached grow (cs ++ cs'))) t.
Proof. exact @c18_others. Qed.
Print Assumptions C18_others_partial.
Example C18_others_case := C18_others_partial (grow := dbl) build
  ([CWithout 0 5; CIntersection 0 1; CDifference 0 1; CWhere Z.even 0; CWithout 1 9; CDifference 2 0] ++ later) 0 setB eq_refl eq_refl.
Example C18_others_run :
  let st := reached dbl (build ++ [CWithout 0 5; CIntersection 0 1; CDifference 0 1; CWhere Z.even 0; CWithout 1 9; CDifference 2 0] ++ later) in
  (elemsAt st 0, elemsAt st 1, elemsAt st 4, elemsAt st 5) =
  (Some (Some [1; 5; 9; 13; 2]), Some (Some [1; 13; 9; 2]), Some (Some [2]), Some (Some [1; 13; 2])).
Proof. vm_compute. reflexivity. Qed.

Theorem C17_agree : forall {E : Env} {EO : EnvOk E} {T : Type} {K : Key T} {vok : T -> Prop} {KO : KeyOk K vok} {grow : nat -> nat -> nat}
    (cs : list (cmd T)),
  progOk vok cs -> forallb builderCmd cs = true ->
  length (st_sets (reached grow cs)) = length (ps_sets (prun cs pinitial)) /\
  forall i t, nth_error (st_sets (reached grow cs)) i = Some t ->
    exists u, nth_error (ps_sets (prun cs pinitial)) i = Some u /\ valueOf (reached grow cs) t u.
Proof. exact @c17_agree. Qed.
Print Assumptions C17_agree.
Example C17_agree_case := C17_agree (vok := anyZ) (grow := dbl) (build ++ later) ltac:(anyOk) eq_refl.
Example C17_agree_run :
  map Some (map (fun u => elemso (t_root u)) (ps_sets (prun (build ++ later) pinitial))) =
  map (fun t => option_map (fun u => elemso (t_root u)) (readT treeFuel (st_heap (reached dbl (build ++ later))) t))
    (st_sets (reached dbl (build ++ later))).
Proof. vm_compute. reflexivity. Qed.

Theorem C17_values : forall {E : Env} {T : Type} {K : Key T} {vok : T -> Prop} {KO : KeyOk K vok} {grow : nat -> nat -> nat}
    (cs : list (cmd T)),
  progOk vok cs ->
  length (st_builders (reached grow cs)) = length (ps_builders (prun cs pinitial)) /\
  forall b t, nth_error (st_builders (reached grow cs)) b = Some t ->
    exists u, nth_error (ps_builders (prun cs pinitial)) b = Some u /\ valueOf (reached grow cs) t u /\
      st_sets (reached grow (cs ++ [CFinish b])) = st_sets (reached grow cs) ++ [t] /\
      valueOf (reached grow (cs ++ [CFinish b])) t u.
Proof. exact @c17_values. Qed.
Print Assumptions C17_values.
(** The two extensions of set 0 share a slot, so set 1 and the set made from it change (C18); builder 1 does not. *)
Definition mixed : list (cmd Z) := build ++ [CWith 0 17; CAdd 1 12; CWith 0 21; CAdd 1 16].
Example C17_values_case := C17_values (vok := anyZ) (grow := dbl) mixed ltac:(anyOk).
Example C17_values_run :
  (h_over (st_heap (reached dbl mixed)), elemsAt (reached dbl mixed) 1, elemsAt (reached dbl (mixed ++ [CFinish 1])) 3,
   map (fun u => elemso (t_root u)) (ps_builders (prun mixed pinitial))) =
  (1%nat, Some (Some [1; 5; 9; 13; 21; 2]), Some (Some [4; 8; 12; 16]), [[]; [4; 8; 12; 16]]).
Proof. vm_compute. reflexivity. Qed.

Theorem C18_no_overwrite_partial : forall {E : Env} {EO : EnvOk E} {T : Type} {K : Key T} {vok : T -> Prop} {KO : KeyOk K vok} {grow : nat -> nat -> nat}
    (cs cs' : list (cmd T)) i t,
  progOk vok (cs ++ cs') -> h_over (st_heap (reached grow (cs ++ cs'))) = 0%nat ->
  nth_error (st_sets (reached grow cs)) i = Some t ->
  exists u, nth_error (ps_sets (prun cs pinitial)) i = Some u /\ valueOf (reached grow cs) t u /\ valueOf (reached grow (cs ++ cs')) t u.
Proof. exact @c18_no_overwrite. Qed.
Print Assumptions C18_no_overwrite_partial.
(** With exact growth (and no removal from the bucket) every With makes a new array. *)
Example C18_no_overwrite_case := C18_no_overwrite_partial (vok := anyZ) (grow := exact) build [CWith 0 17; CWith 0 21] 0 setB ltac:(anyOk)
  ltac:(vm_compute; reflexivity) eq_refl.
Example C18_no_overwrite_run :
  let st := reached exact (build ++ [CWith 0 17; CWith 0 21]) in
  (elemsAt st 0, elemsAt st 1, elemsAt st 2) =
  (Some (Some [1; 5; 9; 13; 2]), Some (Some [1; 5; 9; 13; 17; 2]), Some (Some [1; 5; 9; 13; 21; 2])).
Proof. vm_compute. reflexivity. Qed.

Theorem C18_no_overwrite_values_partial : forall {E : Env} {EO : EnvOk E} {T : Type} {K : Key T} {vok : T -> Prop} {KO : KeyOk K vok} {grow : nat -> nat -> nat}
    (cs : list (cmd T)),
  progOk vok cs -> h_over (st_heap (reached grow cs)) = 0%nat ->
  length (st_sets (reached grow cs)) = length (ps_sets (prun cs pinitial)) /\
  forall i t, nth_error (st_sets (reached grow cs)) i = Some t ->
    exists u, nth_error (ps_sets (prun cs pinitial)) i = Some u /\ valueOf (reached grow cs) t u.
Proof. exact @c18_no_overwrite_values. Qed.
Print Assumptions C18_no_overwrite_values_partial.
Example C18_no_overwrite_values_case := C18_no_overwrite_values_partial (vok := anyZ) (grow := exact) (build ++ [CWith 0 17; CWith 0 21]) ltac:(anyOk)
  ltac:(vm_compute; reflexivity).

Theorem C18_hash_partial : forall {E : Env} {EO : EnvOk E} {T : Type} {K : Key T} {vok : T -> Prop} {KO : KeyOk K vok} {grow : nat -> nat -> nat}
    (cs cs' : list (cmd T)) i t,
  noTripleHash vok -> progOk vok (cs ++ cs') ->
  nth_error (st_sets (reached grow cs)) i = Some t ->
  nth_error (st_sets (reached grow (cs ++ cs'))) i = Some t /\
  exists u, nth_error (ps_sets (prun cs pinitial)) i = Some u /\ valueOf (reached grow cs) t u /\ valueOf (reached grow (cs ++ cs')) t u.
Proof. exact @c18_hash. Qed.
Print Assumptions C18_hash_partial.
Example C18_hash_case := C18_hash_partial (KO := fewOk) (grow := dbl) few1 few2 1 setF few_noTriple few_ok eq_refl.
Example C18_hash_run :
  let st := reached dbl (few1 ++ few2) in
  map (elemsAt st) (seq 0 12) = map (fun l => Some (Some l))
    [[1; 5; 2; 3]; [1; 5; 2; 6; 3]; [106; 7]; [1; 5; 3]; [1; 5; 2; 106; 3]; [1; 5; 2; 6; 3; 7]; [1; 5; 2; 106; 3; 7]; [106];
     [1; 5; 2; 3]; [1; 5; 3]; [0; 1; 5; 2; 6; 3]; [4; 1; 5; 2; 6; 3]].
Proof. vm_compute. reflexivity. Qed.

Theorem C18_hash_values_partial : forall {E : Env} {EO : EnvOk E} {T : Type} {K : Key T} {vok : T -> Prop} {KO : KeyOk K vok} {grow : nat -> nat -> nat}
    (cs : list (cmd T)),
  noTripleHash vok -> progOk vok cs ->
  length (st_sets (reached grow cs)) = length (ps_sets (prun cs pinitial)) /\
  forall i t, nth_error (st_sets (reached grow cs)) i = Some t ->
    exists u, nth_error (ps_sets (prun cs pinitial)) i = Some u /\ valueOf (reached grow cs) t u.
Proof. exact @c18_hash_values. Qed.
Print Assumptions C18_hash_values_partial.
Example C18_hash_values_case := C18_hash_values_partial (KO := fewOk) (grow := dbl) (few1 ++ few2) few_noTriple few_ok.

(** The full property is false, whatever the growth policy of append. Remove (twig.go:220-237) leaves spare capacity in
    the array of a bucket; the first With after Finish puts its element there (twig.go:282-304), and the second With
    overwrites it, so that the set made by the first With changes. *)
Definition removed : list (cmd Z) := [CNew; CAdd 0 1; CAdd 0 5; CAdd 0 9; CAdd 0 13; CRemove 0 13; CFinish 0].
Definition removedState (c : nat) : state := Eval vm_compute in reached (fun _ _ => c) removed.
Lemma removed_state grow : reached grow removed = removedState (grow 3%nat 4%nat).
Proof. vm_compute. reflexivity. Qed.
Lemma removed_run grow :
  elemsAt (reached grow (removed ++ [CWith 0 17])) 1 = Some (Some [1; 5; 9; 17]) /\
  elemsAt (reached grow ((removed ++ [CWith 0 17]) ++ [CWith 0 21])) 1 = Some (Some [1; 5; 9; 21]).
Proof.
  rewrite !reached_app, removed_state. destruct (grow 3%nat 4%nat) as [|[|[|[|c]]]]; (split; vm_compute; reflexivity).
Qed.
Lemma change_seen (grow : nat -> nat -> nat) (cs : list (cmd Z)) c i l l' :
  elemsAt (reached grow cs) i = Some (Some l) -> elemsAt (reached grow (cs ++ [c])) i = Some (Some l') -> l <> l' ->
  exists t, nth_error (st_sets (reached grow cs)) i = Some t /\
    ~ unchanged (st_heap (reached grow cs)) (st_heap (reached grow (cs ++ [c]))) t.
Proof.
  unfold elemsAt. intros R1 R2 Hn. destruct (nth_error (st_sets (reached grow cs)) i) as [t|] eqn:Et; [|discriminate].
  exists t. split; [reflexivity|]. intros H.
  assert (Et2 : nth_error (st_sets (reached grow (cs ++ [c]))) i = Some t).
  { rewrite reached_app. apply step_sets_run. exact Et. }
  rewrite Et2 in R2. cbn [option_map] in R1, R2. rewrite (H treeFuel) in R2. rewrite R1 in R2. apply Hn. injection R2. auto.
Qed.
Lemma removed_ok : progOk anyZ ((removed ++ [CWith 0 17]) ++ [CWith 0 21]).
Proof. anyOk. Qed.
Theorem C18_refuted : forall grow : nat -> nat -> nat,
  ~ (forall (E : Env) (EO : EnvOk E) (T : Type) (K : Key T) (vok : T -> Prop) (KO : KeyOk K vok) (cs : list (cmd T)) c i t,
       progOk vok (cs ++ [c]) -> nth_error (st_sets (reached grow cs)) i = Some t ->
       unchanged (st_heap (reached grow cs)) (st_heap (reached grow (cs ++ [c]))) t).
Proof.
  intros grow H. destruct (removed_run grow) as [R1 R2].
  destruct (change_seen grow _ _ _ _ _ R1 R2 ltac:(discriminate)) as (t & Et & Hn).
  exact (Hn (H E0 E0_ok Z K0 anyZ K0_ok _ _ _ t removed_ok Et)).
Qed.
Print Assumptions C18_refuted.

(** With doubling no removal is needed: four colliding elements leave two spare slots. Has and the elements of the set
    obtained by With(17) change when 21 is added to the set it was made from. *)
Definition four : list (cmd Z) := [CNew; CAdd 0 1; CAdd 0 5; CAdd 0 9; CAdd 0 13; CFinish 0].
Theorem C18_with_refuted :
  let before := reached dbl (four ++ [CWith 0 17]) in
  let after := reached dbl (four ++ [CWith 0 17; CWith 0 21]) in
  elemsAt before 1 = Some (Some [1; 5; 9; 13; 17]) /\ getAt before 1 17 = Some (Ok (Some 17)) /\ getAt before 1 21 = Some (Ok None) /\
  elemsAt after 1 = Some (Some [1; 5; 9; 13; 21]) /\ getAt after 1 17 = Some (Ok None) /\ getAt after 1 21 = Some (Ok (Some 21)) /\
  map (fun u => elemso (t_root u)) (ps_sets (prun (four ++ [CWith 0 17; CWith 0 21]) pinitial)) =
    [[1; 5; 9; 13]; [1; 5; 9; 13; 17]; [1; 5; 9; 13; 21]].
Proof. vm_compute. repeat split. Qed.
Print Assumptions C18_with_refuted.

(** The same with Union: a branch combined with a leaf uses With (branch.go:112-117). *)
Definition unions : list (cmd Z) :=
  [CNew; CAdd 0 1; CAdd 0 5; CAdd 0 9; CAdd 0 13; CFinish 0; CAdd 0 17; CFinish 0; CAdd 0 21; CFinish 0; CCombine (fun _ b => b) 0 1].
Theorem C18_union_refuted :
  elemsAt (reached dbl unions) 3 = Some (Some [1; 5; 9; 13; 17]) /\
  elemsAt (reached dbl (unions ++ [CCombine (fun _ b => b) 0 2])) 3 = Some (Some [1; 5; 9; 13; 21]).
Proof. vm_compute. split; reflexivity. Qed.
Print Assumptions C18_union_refuted.

(** And with a map: its entries are the elements, and the entry for key 17 is lost. *)
Definition kv (k v : Z) : entry Z Z := mkEntry k v.
Definition entries : list (cmd (entry Z Z)) :=
  [CNew; CAdd 0 (kv 1 10); CAdd 0 (kv 5 50); CAdd 0 (kv 9 90); CAdd 0 (kv 13 130); CFinish 0; CWith 0 (kv 17 170)].
Theorem C18_map_refuted :
  getAt (reached dbl entries) 1 (kv 17 0) = Some (Ok (Some (kv 17 170))) /\
  getAt (reached dbl (entries ++ [CWith 0 (kv 21 210)])) 1 (kv 17 0) = Some (Ok None).
Proof. vm_compute. split; reflexivity. Qed.
Print Assumptions C18_map_refuted.
