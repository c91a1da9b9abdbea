@@ Preamble
Local Open Scope Z_scope.
(** Integers whose place in the root branch is their value modulo 8. *)
#[local] Instance KC : Key Z := {| veq := Z.eqb; vhash := fun a seed => wrap 64 (Z.to_N a * 2 ^ 61) |}.
#[local] Instance KC_ok : KeyOk KC anyZ.
Proof.
  constructor; cbn; intros; try (apply wrap_lt).
  - apply Z.eqb_refl.
  - rewrite Z.eqb_sym. auto.
  - rewrite Z.eqb_eq in *. congruence.
  - rewrite Z.eqb_eq in *. congruence.
Qed.
Definition sP : set Z := Eval vm_compute in okOr s_empty (s_new [0; 1; 2]).
Definition sQ : set Z := Eval vm_compute in okOr s_empty (s_new [5; 6; 2; 10]).
Lemma sP_reach : SetReach anyZ sP.
Proof. apply (sr_new _ _ _ [0; 1; 2]); [intros v _; exact I|]. vm_compute. reflexivity. Qed.
Lemma sQ_reach : SetReach anyZ sQ.
Proof. apply (sr_new _ _ _ [5; 6; 2; 10]); [intros v _; exact I|]. vm_compute. reflexivity. Qed.
Definition mP : gomap Z Z := Eval vm_compute in okOr m_empty (m_new [mkKV 0 1; mkKV 1 2; mkKV 2 3]).
Definition mQ : gomap Z Z := Eval vm_compute in okOr m_empty (m_new [mkKV 5 6; mkKV 6 7; mkKV 2 4; mkKV 10 11]).
Lemma mP_reach : MapReach anyZ anyZ mP.
Proof. apply (mr_new _ _ _ _ _ _ [mkKV 0 1; mkKV 1 2; mkKV 2 3]); [intros kv _; split; exact I|]. vm_compute. reflexivity. Qed.
Lemma mQ_reach : MapReach anyZ anyZ mQ.
Proof. apply (mr_new _ _ _ _ _ _ [mkKV 5 6; mkKV 6 7; mkKV 2 4; mkKV 10 11]); [intros kv _; split; exact I|]. vm_compute. reflexivity. Qed.

(** What a schedule leads to: the result, or the racy mask of the packer while [Parallel] is running. *)
Inductive seen (B : Type) := Returned (b : B) | Running (mask : N) | Stuck.
Arguments Returned {B} _.
Arguments Running {B} _.
Arguments Stuck {B}.
Definition after {B} (cs : list (list nat)) (p : conc B) : seen B :=
  match p with
  | CRun g fin =>
      match sched fanout cs None g with
      | Some (_, GRet a) => Returned (fin a)
      | Some (_, GFork _ sh _ _ _ _) => Running (fst sh)
      | _ => Stuck
      end
  | _ => Stuck
  end.

(** Workers 0, 1, 3 and 4 all read the mask before any of them writes it, and then write it one after the other;
    then they and worker 2 (which flips the arguments) finish. *)
Definition race : list (list nat) :=
  ([[0]; [1]; [3]; [4]; [0]; [1]; [3]; [4]; [4]; [3]; [0]; [1]; [2]; [2]; [2]; [2]; [2]; [2]; [4]; [3]; [0]; [1]])%nat.
(** The caller receives five outcomes and goes on. *)
Definition receive : list (list nat) := repeat [] 6.
(** Each worker runs alone, the last first. *)
Definition lastFirst (steps : list nat) : list (list nat) :=
  flat_map (fun p => repeat [fst p] (snd p)) (rev (List.combine (seq 0 (length steps)) steps)).

(** Another configuration: no parallelism, goroutines finishing in the order started. *)
Lemma noPar_ok : EnvOk (withConfig 100 (-1) (fun _ l => l)).
Proof. intros p l. apply Permutation_refl. Qed.

@@ C20_union
Example C20_union_case := C20_union sP sQ sP_reach sQ_reach.
(** The updates of the mask by workers 0, 1 and 3 are lost (only bit 6 is left of bits 0, 1, 5 and 6), and the
    result is the same. *)
Example C20_union_run : after race (s_unionC 5 sP sQ) = Running 64%N /\
  (exists r, s_union sP sQ = Ok r /\ after (race ++ receive) (s_unionC 5 sP sQ) = Returned r /\
     after (lastFirst [4; 4; 6; 4; 4]%nat ++ receive) (s_unionC 5 sP sQ) = Returned r).
Proof. split; [vm_compute; reflexivity|]. exists (okOr s_empty (s_union sP sQ)). vm_compute. auto. Qed.
(** The configuration makes no difference. *)
Example C20_union_config := proj2 C20_union_case _ _ _ noPar_ok.
(** Operands for which Union panics (C19): it panics under every schedule. *)
Example C20_union_panic : s_union (K := K0) sA sC = Panic /\ forall limit, Always (s_unionC (K := K0) limit sA sC) Panic.
Proof.
  assert (H : s_union (K := K0) sA sC = Panic) by (vm_compute; reflexivity). split; [exact H|].
  rewrite <- H. exact (proj1 (C20_union (KO := K0_ok) sA sC sA_reach sC_reach)).
Qed.

@@ C20_intersection
Example C20_intersection_case := C20_intersection sP sQ sP_reach sQ_reach.
Example C20_intersection_run : (r <- s_intersection sP sQ ;; s_elements r) = Ok [2] /\
  after (lastFirst [3]%nat ++ [[]; []]) (s_intersectionC 5 sP sQ) = Returned (okOr s_empty (s_intersection sP sQ)).
Proof. vm_compute. auto. Qed.

@@ C20_difference
Example C20_difference_case := C20_difference sQ sP sQ_reach sP_reach.
Example C20_difference_run : (r <- s_difference sQ sP ;; s_elements r) = Ok [10; 5; 6] /\
  after (lastFirst [3; 2; 2]%nat ++ repeat [] 4) (s_differenceC 5 sQ sP) = Returned (okOr s_empty (s_difference sQ sP)).
Proof. vm_compute. auto. Qed.

@@ C20_symmetricDifference
Example C20_symmetricDifference_case := C20_symmetricDifference sP sQ sP_reach sQ_reach.
Example C20_symmetricDifference_run : (r <- s_symmetricDifference sP sQ ;; s_elements r) = Ok [0; 1; 10; 5; 6].
Proof. vm_compute. auto. Qed.

@@ C20_where
Example C20_where_case := C20_where sQ Z.even sQ_reach.
Example C20_where_run : (r <- s_where sQ Z.even ;; s_elements r) = Ok [2; 10; 6] /\
  after (lastFirst [3; 3; 3]%nat ++ repeat [] 4) (s_whereC 5 sQ Z.even) = Returned (okOr s_empty (s_where sQ Z.even)).
Proof. vm_compute. auto. Qed.

@@ C20_equal
Example C20_equal_case := C20_equal sQ sQ sQ_reach sQ_reach.
Example C20_equal_run : s_equal sQ sQ = Ok true /\
  after (lastFirst [2; 2; 2]%nat ++ repeat [] 4) (s_equalC 5 sQ sQ) = Returned true.
Proof. vm_compute. auto. Qed.

@@ C20_isSubsetOf
Example C20_isSubsetOf_case := C20_isSubsetOf sP sQ sP_reach sQ_reach.
(** The caller returns as soon as one worker reports false; the others have not run. *)
Example C20_isSubsetOf_run : s_isSubsetOf sP sQ = Ok false /\
  after [[1]; []]%nat (s_isSubsetOfC 5 sP sQ) = Returned false.
Proof. vm_compute. auto. Qed.

@@ C20_reduce
Example C20_reduce_case := C20_reduce sQ (fun l => fold_left Z.add l 0) sQ_reach.
Example C20_reduce_run : s_reduce sQ (fun l => fold_left Z.add l 0) = Ok (Some 23) /\
  after (lastFirst [3; 3; 3]%nat ++ repeat [] 4) (s_reduceC 5 sQ (fun l => fold_left Z.add l 0)) = Returned (Some 23).
Proof. vm_compute. auto. Qed.

@@ C20_reduce2
Example C20_reduce2_case := C20_reduce2 0 sQ Z.sub sQ_reach.
Example C20_reduce2_run : s_reduce2 0 sQ Z.sub = Ok (Some (-19)) /\
  after (lastFirst [3; 3; 3]%nat ++ repeat [] 4) (s_reduce2C 5 0 sQ Z.sub) = Returned (Some (-19)).
Proof. vm_compute. auto. Qed.

@@ C20_merge
Example C20_merge_case := C20_merge mP mQ (fun _ a b => a - b) mP_reach mQ_reach.
Example C20_merge_run : (r <- m_merge mP mQ (fun _ a b => a - b) ;; m_entries r) = Ok [(0, 1); (1, 2); (2, -1); (10, 11); (5, 6); (6, 7)] /\
  after (race ++ receive) (m_mergeC 5 mP mQ (fun _ a b => a - b)) = Returned (okOr m_empty (m_merge mP mQ (fun _ a b => a - b))).
Proof. vm_compute. auto. Qed.

@@ C20_update
Example C20_update_case := C20_update mP mQ mP_reach mQ_reach.
Example C20_update_run : (r <- m_update mP mQ ;; m_entries r) = Ok [(0, 1); (1, 2); (2, 4); (10, 11); (5, 6); (6, 7)] /\
  after (race ++ receive) (m_updateC 5 mP mQ) = Returned (okOr m_empty (m_update mP mQ)).
Proof. vm_compute. auto. Qed.

@@ C20_mapEqual
Example C20_mapEqual_case := C20_mapEqual mP mP mP_reach mP_reach.
Example C20_mapEqual_run : m_equal mP mP = Ok true /\
  after (lastFirst [2; 2; 2]%nat ++ repeat [] 4) (m_equalC 5 mP mP) = Returned true.
Proof. vm_compute. auto. Qed.
