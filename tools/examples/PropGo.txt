@@ Preamble
Local Open Scope Z_scope.
(** Integers whose place in the root branch is their value modulo 8. *)
#[local] Instance KC : Key Z := {| veq := Z.eqb; vhash := fun a seed => wrap 64 (Z.to_N a * 2 ^ 61) |}.
#[local] Instance KC_ok : KeyOk KC anyZ.
Proof.
  constructor; cbn; intros; try (apply wrap_lt).
  - apply Z.eqb_refl.
  - rewrite Z.eqb_sym. auto.
  - rewrite Z.eqb_eq in *. congruence.
  - rewrite Z.eqb_eq in *. congruence.
Qed.
Definition sP : set Z := Eval vm_compute in okOr s_empty (s_new [0; 1; 2]).
Definition sQ : set Z := Eval vm_compute in okOr s_empty (s_new [5; 6; 2; 10]).
Lemma sP_reach : SetReach anyZ sP.
Proof. apply (sr_new _ _ _ [0; 1; 2]); [intros v _; exact I|]. vm_compute. reflexivity. Qed.
Lemma sQ_reach : SetReach anyZ sQ.
Proof. apply (sr_new _ _ _ [5; 6; 2; 10]); [intros v _; exact I|]. vm_compute. reflexivity. Qed.
Definition mP : gomap Z Z := Eval vm_compute in okOr m_empty (m_new [mkKV 0 1; mkKV 1 2; mkKV 2 3]).
Definition mQ : gomap Z Z := Eval vm_compute in okOr m_empty (m_new [mkKV 5 6; mkKV 6 7; mkKV 2 4; mkKV 10 11]).
Lemma mP_reach : MapReach anyZ anyZ mP.
Proof. apply (mr_new _ _ _ _ _ _ [mkKV 0 1; mkKV 1 2; mkKV 2 3]); [intros kv _; split; exact I|]. vm_compute. reflexivity. Qed.
Lemma mQ_reach : MapReach anyZ anyZ mQ.
Proof. apply (mr_new _ _ _ _ _ _ [mkKV 5 6; mkKV 6 7; mkKV 2 4; mkKV 10 11]); [intros kv _; split; exact I|]. vm_compute. reflexivity. Qed.

(** The limit at which [Parallel] starts goroutines at the root alone. *)
Definition one : Z := 1.

(** What a schedule leads to: what the caller has returned, how many goroutines it is waiting for or has left behind that have
    not ended, and how many have been started. *)
Definition alive {A X F} (ws : list (worker A X F)) : nat := length (filter (fun w => match w with WGone => false | _ => true end) ws).
Definition at_ {B} (cs : list (nat * list nat)) (p : conc B) : option (option B * list nat * nat) :=
  match p with
  | CRun g fin =>
      match ssched fanout cs (start g) with
      | Some (_, l, n) =>
          Some (match l with TProg (GRet a) :: _ => Some (fin a) | _ => None end,
            map (fun t => match t with TProg (GFork ws _ _ _ _ _) | TGroup ws _ _ => alive ws | TProg _ => O end) l, n)
      | None => None
      end
  | CPanic | CRet _ => None
  end.
(** The caller's workers run alone, the last first, [steps] steps each; then the caller receives. *)
Definition lastFirst (steps : list nat) : list (nat * list nat) :=
  flat_map (fun p => repeat (O, [fst p]) (snd p)) (rev (List.combine (seq 0 (length steps)) steps)).
Definition receive (n : nat) : list (nat * list nat) := repeat (O, []) n.

@@ C70_union
Example C70_union_case := C70_union one sP sQ sP_reach sQ_reach.
(** Five goroutines, one of which flips the arguments. *)
Example C70_union_run : at_ [] (s_unionC one sP sQ) = Some (None, [5%nat], 5%nat) /\
  at_ (lastFirst [4; 4; 6; 4; 4]%nat ++ receive 6) (s_unionC one sP sQ) = Some (Some (okOr s_empty (s_union sP sQ)), [0; 0]%nat, 5%nat).
Proof. vm_compute. auto. Qed.
Example C70_union_budget : budget 0 = 0%nat /\ budget 1 = 8%nat /\ budget 2 = 72%nat.
Proof. vm_compute. auto. Qed.

@@ C70_intersection
Example C70_intersection_case := C70_intersection one sP sQ sP_reach sQ_reach.
Example C70_intersection_run :
  at_ (lastFirst [3]%nat ++ receive 2) (s_intersectionC one sP sQ) = Some (Some (okOr s_empty (s_intersection sP sQ)), [0; 0]%nat, 1%nat).
Proof. vm_compute. auto. Qed.

@@ C70_difference
Example C70_difference_case := C70_difference sQ sP sQ_reach sP_reach.
Example C70_difference_run : at_ [] (s_differenceC (-1) sQ sP) = Some (Some (okOr s_empty (s_difference sQ sP)), [0]%nat, 0%nat).
Proof. vm_compute. auto. Qed.

@@ C70_symmetricDifference
Example C70_symmetricDifference_case := C70_symmetricDifference one sP sQ sP_reach sQ_reach.
(** The difference is a leaf: no goroutines. *)
Example C70_symmetricDifference_run :
  at_ (receive 3) (s_symmetricDifferenceC one sP sQ) = Some (Some (okOr s_empty (s_symmetricDifference sP sQ)), [0%nat], 0%nat).
Proof. vm_compute. auto. Qed.

@@ C70_where
Example C70_where_case := C70_where one sQ Z.even sQ_reach.
Example C70_where_run :
  at_ (lastFirst [3; 3; 3]%nat ++ receive 4) (s_whereC one sQ Z.even) = Some (Some (okOr s_empty (s_where sQ Z.even)), [0; 0]%nat, 3%nat).
Proof. vm_compute. auto. Qed.

@@ C70_equal
Example C70_equal_case := C70_equal one sQ sQ sQ_reach sQ_reach.
Example C70_equal_run :
  at_ (lastFirst [2; 2; 2]%nat ++ receive 4) (s_equalC one sQ sQ) = Some (Some true, [0; 0]%nat, 3%nat).
Proof. vm_compute. auto. Qed.

@@ C70_isSubsetOf
Example C70_isSubsetOf_case := C70_isSubsetOf one sP sQ sP_reach sQ_reach.
(** The caller has returned false and left four goroutines behind; then they end, with no one to receive. *)
Example C70_isSubsetOf_run :
  at_ ([(0, [1]); (0, [])]%nat) (s_isSubsetOfC one sP sQ) = Some (Some false, [0; 4]%nat, 5%nat) /\
  at_ ([(0, [1]); (0, []); (1, [4]); (1, [0]); (1, [2]); (1, [2]); (1, [3])]%nat) (s_isSubsetOfC one sP sQ) = Some (Some false, [0; 0]%nat, 5%nat).
Proof. vm_compute. auto. Qed.

@@ C70_reduce
Example C70_reduce_case := C70_reduce one sQ (fun l => fold_left Z.add l 0) sQ_reach.
Example C70_reduce_run :
  at_ (lastFirst [3; 3; 3]%nat ++ receive 4) (s_reduceC one sQ (fun l => fold_left Z.add l 0)) = Some (Some (Some 23), [0; 0]%nat, 3%nat).
Proof. vm_compute. auto. Qed.

@@ C70_merge
Example C70_merge_case := C70_merge one mP mQ (fun _ a b => a - b) mP_reach mQ_reach.
Example C70_merge_run : at_ [] (m_mergeC one mP mQ (fun _ a b => a - b)) = Some (None, [5%nat], 5%nat).
Proof. vm_compute. auto. Qed.

@@ C70_update
Example C70_update_case := C70_update one mP mQ mP_reach mQ_reach.
Example C70_update_run : at_ (receive 3) (m_updateC 0 mP mQ) = Some (Some (okOr m_empty (m_update mP mQ)), [0%nat], 0%nat).
Proof. vm_compute. auto. Qed.

@@ C70_mapEqual
Example C70_mapEqual_case := C70_mapEqual one mP mP mP_reach mP_reach.
Example C70_mapEqual_run : at_ (lastFirst [2; 2; 2]%nat ++ receive 4) (m_equalC one mP mP) = Some (Some true, [0; 0]%nat, 3%nat).
Proof. vm_compute. auto. Qed.

@@ C70_gauge
Example C70_gauge_case : gaugeFor "7" 8 1000 = g_limit (newGauge (E := withConfig 7 1 (fun _ l => l)) 1000).
Proof. apply (C70_gauge (E := E0) "7" 8 (fun _ l => l) 1000); [lia|reflexivity]. Qed.
(** For values of the variable at the lower end the subtraction wraps around: goroutines are never started. *)
Example C70_gauge_wrap : gaugeFor "-9223372036854775807" 8 1000 <= 0 /\
  g_limit (newGauge (E := withConfig (-9223372036854775807) 1 (fun _ l => l)) 1000) = 1.
Proof. vm_compute. split; [discriminate|reflexivity]. Qed.

@@ C70_off
Example C70_off_case : budget (Z.to_nat (gaugeFor "Off" 8 1000000)) = 0%nat.
Proof. apply C70_off; [reflexivity|lia]. Qed.

@@ C70_default
Example C70_default_case : gaugeFor "" 8 131071 <= 0 <-> 131071 < 2 ^ (14 + Z.of_nat fb).
Proof. apply C70_default; [discriminate|reflexivity|lia|lia]. Qed.
Example C70_default_run : gaugeFor "" 8 131071 = 0 /\ gaugeFor "" 8 131072 = 1 /\ gaugeFor "ten" 8 131072 = 1 /\ gaugeFor "+16" 8 131072 = 0.
Proof. vm_compute. auto. Qed.

@@ C70_cores
Example C70_cores_case := C70_cores 48 ltac:(lia).
Example C70_cores_run : maxDepthOf 1 = 1 /\ maxDepthOf 8 = 1 /\ maxDepthOf 9 = 2 /\ maxDepthOf 64 = 2 /\ maxDepthOf 65 = 3.
Proof. vm_compute. auto. Qed.

@@ C70_bound
Example C70_bound_case := C70_bound "0" 64 1000000000 ltac:(lia).
Example C70_bound_run : budget (Z.to_nat (gaugeFor "0" 64 1000000000)) = 72%nat.
Proof. vm_compute. auto. Qed.

@@ C70_spellings
Example C70_spellings_case : toLower "oFf" = "off"%string.
Proof. apply C70_spellings. cbn. auto. Qed.
Example C70_spellings_only : toLower "0ff" <> "off"%string.
Proof. intros H. apply C70_spellings in H. cbn in H. repeat destruct H as [H|H]; try discriminate; contradiction. Qed.

@@ C70_atoi
Lemma numeral_120 : Numeral "120" 120.
Proof. refine (num_more 1 "20" 20 _ (num_more 2 "0" 0 _ (num_last 0 _))); lia. Qed.
Example C70_atoi_case : atoi "120" = Some 120 /\ atoi "+120" = Some 120 /\ atoi "-120" = Some (-120).
Proof.
  split; [|split]; apply C70_atoi; (split; [lia|]).
  - left. apply numeral_120.
  - right. left. exists "120"%string. split; [reflexivity|apply numeral_120].
  - right. right. exists "120"%string. split; [reflexivity|apply numeral_120].
Qed.
Example C70_atoi_run : (atoi "", atoi "-", atoi "1x", atoi "9223372036854775807", atoi "9223372036854775808") = (None, None, None, Some 9223372036854775807, None).
Proof. vm_compute. reflexivity. Qed.

@@ C70_setting
Example C70_setting_case := C70_setting "OFF".
Example C70_setting_run : (maxConcurrencyOf "OFF", maxConcurrencyOf "-3", maxConcurrencyOf "many") = (9223372036854775807, -3, 15).
Proof. vm_compute. reflexivity. Qed.
