@@ Preamble
Local Open Scope Z_scope.
(** Of images that are equal up to a multiple of 100 [biggest] keeps the larger one. *)
Definition biggest : CombineArgs Z := combineArgs NonParallel Z.max.
Definition square (v : Z) : Z := v * v.
Lemma biggest_fine f : MapFine anyZ biggest f.
Proof.
  split; [intros; exact Logic.I|]. split; auto. split; [|exact (gaugeOk_NonParallel E0_ok)].
  intros a b _ _ H. split; [exact Logic.I|]. change (veq (Z.max a b) b = true). destruct (Z.max_spec a b) as [[_ ->]|[_ ->]]; auto.
  apply (veq_refl (vok := anyZ)). exact Logic.I.
Qed.
@@ C57_images_partial
Example C57_images_case r := C57_images_partial sA biggest square r sA_reach (biggest_fine square).
(** The squares of 1, 5, 9, 2 and 3 are 1, 25, 81, 4 and 9. *)
Example C57_images_run :
  match s_nodeMap biggest sA square with Ok r => (s_elements r, s_count r, s_elements sA) | _ => (Panic, 0, Panic) end =
  (Ok [4; 1; 25; 81; 9], 5, Ok [1; 5; 9; 2; 3]).
Proof. vm_compute. reflexivity. Qed.
@@ C57_map_partial
Example C57_map_case r := C57_map_partial sA biggest (fun v => v mod 3) r sA_reach (biggest_fine _).
Example C57_map_run : match s_map sA (fun v => v mod 3), s_nodeMap biggest sA (fun v => v mod 3) with
                      | Ok r, Ok r' => (s_elements r, s_elements r') | _, _ => (Panic, Panic) end = (Ok [1; 0; 2], Ok [1; 0; 2]).
Proof. vm_compute. reflexivity. Qed.
@@ C57_returns_partial
Definition nmS : set Z := Eval vm_compute in okOr s_empty (s_new [1; 2; 5; 6]).
Lemma nmS_new : s_new [1; 2; 5; 6] = Ok nmS.
Proof. vm_compute. reflexivity. Qed.
Lemma nmS_few : SetReach fewZ nmS.
Proof. apply (sr_new _ _ _ [1; 2; 5; 6]); [|exact nmS_new]. intros e He. cbn in He. unfold fewZ. destruct He as [<-|[<-|[<-|[<-|[]]]]]; vm_compute; split; congruence. Qed.
Definition next8 (v : Z) : Z := (v + 1) mod 8.
Lemma next8_fine : MapFine fewZ biggest next8.
Proof.
  split.
  { intros v _. unfold fewZ, next8. pose proof (Z.mod_pos_bound (v + 1) 8 ltac:(lia)). rewrite Z.mod_small by lia. lia. }
  split; auto. split; [|exact (gaugeOk_NonParallel E0_ok)].
  intros a b Ha Hb H. change (fewZ (Z.max a b) /\ veq (Z.max a b) b = true). destruct (Z.max_spec a b) as [[_ ->]|[_ ->]]; split; auto.
  apply (veq_refl (vok := anyZ)). exact Logic.I.
Qed.
Example C57_returns_case := C57_returns_partial (KO := fewOk) nmS biggest next8 nmS_few next8_fine few_noTriple.
Example C57_returns_run : match s_nodeMap biggest nmS next8 with Ok r => s_elements r | _ => Panic end = Ok [2; 6; 3; 7].
Proof. vm_compute. reflexivity. Qed.
@@ Refutations
Local Open Scope Z_scope.
(** ** What does not hold *)

Definition nmC : set Z := Eval vm_compute in okOr s_empty (s_new [1; 5; 9; 2; 6; 10]).
Lemma nmC_new : s_new [1; 5; 9; 2; 6; 10] = Ok nmC.
Proof. vm_compute. reflexivity. Qed.
Definition nmD : set Z := Eval vm_compute in okOr s_empty (s_new [1; 2]).
Lemma nmD_new : s_new [1; 2] = Ok nmD.
Proof. vm_compute. reflexivity. Qed.

(** The method does not return for every set: where three images of each of two children have one hash, Combine panics (C19);
    SetMap returns the images. *)
Theorem C57_panic_refuted :
  ~ (forall (E : Env) (HE : EnvOk E) (T : Type) (K : Key T) (vok : T -> Prop) (KO : KeyOk K vok) (s : set T) args f,
       SetReach vok s -> MapFine vok args f -> exists r, s_nodeMap args s f = Ok r).
Proof.
  intros H. destruct (H E0 E0_ok Z K0 anyZ K0_ok nmC biggest (fun v => 4 * v)) as (r & Hr).
  - apply (sr_new _ _ _ [1; 5; 9; 2; 6; 10]); [|exact nmC_new]. intros; exact Logic.I.
  - apply biggest_fine.
  - vm_compute in Hr. discriminate Hr.
Qed.
Example C57_panic_map : match s_map nmC (fun v => 4 * v) with Ok r => s_elements r | _ => Panic end = Ok [4; 20; 36; 8; 24; 40].
Proof. vm_compute. reflexivity. Qed.

(** Equal images of the two elements of a leaf are not given to [args.f]: the first one is kept. *)
Theorem C57_resolve_refuted :
  ~ (forall (E : Env) (HE : EnvOk E) (T : Type) (K : Key T) (vok : T -> Prop) (KO : KeyOk K vok) (s : set T) args f a b r,
       SetReach vok s -> MapFine vok args f -> s_elements s = Ok [a; b] -> veq (f a) (f b) = true ->
       s_nodeMap args s f = Ok r ->
       s_elements r = Ok [c_f args (f a) (f b)] \/ s_elements r = Ok [c_f args (f b) (f a)]).
Proof.
  intros H.
  specialize (H E0 E0_ok Z K0 anyZ K0_ok nmD biggest (fun v => 100 * v) 1 2 (mkSet (mkTree (Some (Leaf1 100)) 1))).
  enough (X : s_elements (mkSet (mkTree (Some (Leaf1 100)) 1)) = Ok [200] \/ s_elements (mkSet (mkTree (Some (Leaf1 100)) 1)) = Ok [200])
    by (vm_compute in X; destruct X as [X|X]; discriminate X).
  apply H; try (vm_compute; reflexivity).
  - apply (sr_new _ _ _ [1; 2]); [|exact nmD_new]. intros; exact Logic.I.
  - apply biggest_fine.
Qed.
