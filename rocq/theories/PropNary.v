(** * PropNary: the functions Union and Intersection (C81).

    Generated by tools/genprops.py from SpecNary.v and tools/examples/PropNary.txt.
    Every theorem is followed by a case that meets its hypotheses. *)
From Verif Require Import Base Bits Env EnvFacts Node Iter Tree SetApi MapApi Reach Spec SpecNary ExampleData.

Definition shownSet (r : res (set Z)) : option (list Z) := match r with Ok s => match s_elements s with Ok l => Some l | _ => None end | _ => None end.
Lemma abd_reach s : In s [sA; sB; sD] -> SetReach anyZ s.
Proof. intros [<-|[<-|[<-|[]]]]; [apply sA_reach|apply sB_reach|apply sD_reach]. Qed.
(** The same sets in another order, one twice, and one as an Equal set. *)
Lemma dab_reach s : In s [sD; sA'; sB; sD] -> SetReach anyZ s.
Proof. intros [<-|[<-|[<-|[<-|[]]]]]; [apply sD_reach|apply sA'_reach|apply sB_reach|apply sD_reach]. Qed.
Lemma same_abd : SameSets [sA; sB; sD] [sD; sA'; sB; sD].
Proof.
  split.
  - intros s [<-|[<-|[<-|[]]]]; [exists sA'|exists sB|exists sD]; (split; [cbn; tauto|vm_compute; reflexivity]).
  - intros s [<-|[<-|[<-|[<-|[]]]]]; [exists sD|exists sA|exists sB|exists sD]; (split; [cbn; tauto|vm_compute; reflexivity]).
Qed.
Definition uABD : set Z := Eval vm_compute in okOr s_empty (s_unionN [sA; sB; sD]).
Definition uDAB : set Z := Eval vm_compute in okOr s_empty (s_unionN [sD; sA'; sB; sD]).
Lemma uABD_run : s_unionN [sA; sB; sD] = Ok uABD. Proof. vm_compute. reflexivity. Qed.
Lemma uDAB_run : s_unionN [sD; sA'; sB; sD] = Ok uDAB. Proof. vm_compute. reflexivity. Qed.
Definition uA1 : set Z := Eval vm_compute in okOr s_empty (s_unionN [sA]).
Definition uA2 : set Z := Eval vm_compute in okOr s_empty (s_unionN [sA; sB]).
Definition uM2 : set Z := Eval vm_compute in okOr s_empty (s_union sA sB).
Lemma uA1_run : s_unionN [sA] = Ok uA1. Proof. vm_compute. reflexivity. Qed.
Lemma uA2_run : s_unionN [sA; sB] = Ok uA2. Proof. vm_compute. reflexivity. Qed.
Lemma uM2_run : s_union sA sB = Ok uM2. Proof. vm_compute. reflexivity. Qed.
(** Union(Union(sA, sB), Union(sD, sD)). *)
Definition grp : list (list (set Z)) := [[sA; sB]; [sD; sD]].
Lemma grp_reach ss s : In ss grp -> In s ss -> SetReach anyZ s.
Proof. intros [<-|[<-|[]]] [<-|[<-|[]]]; [apply sA_reach|apply sB_reach|apply sD_reach|apply sD_reach]. Qed.
Definition uDD : set Z := Eval vm_compute in okOr s_empty (s_unionN [sD; sD]).
Definition uG : set Z := Eval vm_compute in okOr s_empty (s_unionN [uA2; uDD]).
Definition uC : set Z := Eval vm_compute in okOr s_empty (s_unionN (concat grp)).
Lemma grp_runs : Forall2 (fun ss r => s_unionN ss = Ok r) grp [uA2; uDD].
Proof. repeat constructor; vm_compute; reflexivity. Qed.
Lemma uG_run : s_unionN [uA2; uDD] = Ok uG. Proof. vm_compute. reflexivity. Qed.
Lemma uC_run : s_unionN (concat grp) = Ok uC. Proof. vm_compute. reflexivity. Qed.
(** Intersections and differences of sA with sB and sD. *)
Lemma bd_reach s : In s [sB; sD] -> SetReach anyZ s.
Proof. intros [<-|[<-|[]]]; [apply sB_reach|apply sD_reach]. Qed.
Definition iB : set Z := Eval vm_compute in okOr s_empty (s_intersection sA sB).
Definition iD : set Z := Eval vm_compute in okOr s_empty (s_intersection sA sD).
Definition dB : set Z := Eval vm_compute in okOr s_empty (s_difference sA sB).
Definition dD : set Z := Eval vm_compute in okOr s_empty (s_difference sA sD).
Definition uBD : set Z := Eval vm_compute in okOr s_empty (s_unionN [sB; sD]).
Definition uI : set Z := Eval vm_compute in okOr s_empty (s_unionN [iB; iD]).
Definition iDD : set Z := Eval vm_compute in okOr s_empty (s_intersectionN [dB; dD]).
Lemma inter_runs : Forall2 (fun t x => s_intersection sA t = Ok x) [sB; sD] [iB; iD].
Proof. repeat constructor; vm_compute; reflexivity. Qed.
Lemma diff_runs : Forall2 (fun t x => s_difference sA t = Ok x) [sB; sD] [dB; dD].
Proof. repeat constructor; vm_compute; reflexivity. Qed.
Lemma uBD_run : s_unionN [sB; sD] = Ok uBD. Proof. vm_compute. reflexivity. Qed.
Lemma uI_run : s_unionN [iB; iD] = Ok uI. Proof. vm_compute. reflexivity. Qed.
Lemma iDD_run : s_intersectionN [dB; dD] = Ok iDD. Proof. vm_compute. reflexivity. Qed.

Theorem C81_union_same : forall {E : Env} {HE : EnvOk E} {T : Type} {K : Key T} {vok : T -> Prop} {KO : KeyOk K vok}
    ss ts r q,
  (forall s, In s ss -> SetReach vok s) -> (forall t, In t ts -> SetReach vok t) -> SameSets ss ts ->
  s_unionN ss = Ok r -> s_unionN ts = Ok q -> s_equal r q = Ok true.
Proof. exact @c81_union_same. Qed.
Print Assumptions C81_union_same.
Example C81_union_same_case := C81_union_same [sA; sB; sD] [sD; sA'; sB; sD] uABD uDAB abd_reach dab_reach same_abd uABD_run uDAB_run.
Example C81_union_same_run : (shownSet (Ok uABD), shownSet (Ok uDAB)) =
  (Some [4; 101; 5; 9; 13; 102; 6; 203], Some [4; 101; 309; 5; 13; 102; 6; 203])%Z.
Proof. vm_compute. reflexivity. Qed.

Theorem C81_intersection_same : forall {E : Env} {HE : EnvOk E} {T : Type} {K : Key T} {vok : T -> Prop} {KO : KeyOk K vok}
    s ss t ts,
  (forall x, In x (s :: ss) -> SetReach vok x) -> (forall x, In x (t :: ts) -> SetReach vok x) -> SameSets (s :: ss) (t :: ts) ->
  exists r q, s_intersectionN (s :: ss) = Ok r /\ s_intersectionN (t :: ts) = Ok q /\ s_equal r q = Ok true.
Proof. exact @c81_intersection_same. Qed.
Print Assumptions C81_intersection_same.
Example C81_intersection_same_case := C81_intersection_same sA [sB; sD] sD [sA'; sB; sD] abd_reach dab_reach same_abd.

Theorem C81_one : forall {E : Env} {HE : EnvOk E} {T : Type} {K : Key T} {vok : T -> Prop} {KO : KeyOk K vok}
    s r,
  SetReach vok s -> s_unionN [s] = Ok r -> s_equal r s = Ok true /\ exists q, s_intersectionN [s] = Ok q /\ s_equal q s = Ok true.
Proof. exact @c81_one. Qed.
Print Assumptions C81_one.
Example C81_one_case := C81_one sA uA1 sA_reach uA1_run.

Theorem C81_two : forall {E : Env} {HE : EnvOk E} {T : Type} {K : Key T} {vok : T -> Prop} {KO : KeyOk K vok}
    s t r u,
  SetReach vok s -> SetReach vok t -> s_unionN [s; t] = Ok r -> s_union s t = Ok u ->
  s_equal r u = Ok true /\ exists q i, s_intersectionN [s; t] = Ok q /\ s_intersection s t = Ok i /\ s_equal q i = Ok true.
Proof. exact @c81_two. Qed.
Print Assumptions C81_two.
Example C81_two_case := C81_two sA sB uA2 uM2 sA_reach sB_reach uA2_run uM2_run.
Example C81_two_run : (shownSet (s_intersectionN [sA; sB]), shownSet (s_intersection sA sB)) =
  (Some [2; 3], Some [2; 3])%Z.
Proof. vm_compute. reflexivity. Qed.

Theorem C81_union_nested : forall {E : Env} {HE : EnvOk E} {T : Type} {K : Key T} {vok : T -> Prop} {KO : KeyOk K vok}
    (sss : list (list (set T))) rs a b,
  (forall ss s, In ss sss -> In s ss -> SetReach vok s) ->
  Forall2 (fun ss r => s_unionN ss = Ok r) sss rs -> s_unionN rs = Ok a -> s_unionN (concat sss) = Ok b -> s_equal a b = Ok true.
Proof. exact @c81_union_nested. Qed.
Print Assumptions C81_union_nested.
Example C81_union_nested_case : s_equal uG uC = Ok true := C81_union_nested grp [uA2; uDD] uG uC grp_reach grp_runs uG_run uC_run.

(** Whether Union panics (C19) depends on the grouping: Union(Union(sA, sB), Union(sD, sB)) does, Union(sA, sB, sD, sB) does not. *)
Example C81_grouping_run : ((a <- s_unionN [sA; sB] ;; b <- s_unionN [sD; sB] ;; s_unionN [a; b]), option_map (@length Z) (shownSet (s_unionN [sA; sB; sD; sB]))) = (Panic, Some 8%nat).
Proof. vm_compute. reflexivity. Qed.

Theorem C81_bounds : forall {E : Env} {HE : EnvOk E} {T : Type} {K : Key T} {vok : T -> Prop} {KO : KeyOk K vok}
    s ss u,
  (forall x, In x (s :: ss) -> SetReach vok x) -> s_unionN (s :: ss) = Ok u ->
  exists i, s_intersectionN (s :: ss) = Ok i /\
    (forall x, In x (s :: ss) -> s_isSubsetOf x u = Ok true /\ s_isSubsetOf i x = Ok true) /\
    (forall t, SetReach vok t -> (s_isSubsetOf u t = Ok true <-> forall x, In x (s :: ss) -> s_isSubsetOf x t = Ok true)) /\
    (forall t, SetReach vok t -> (s_isSubsetOf t i = Ok true <-> forall x, In x (s :: ss) -> s_isSubsetOf t x = Ok true)).
Proof. exact @c81_bounds. Qed.
Print Assumptions C81_bounds.
Example C81_bounds_case := C81_bounds sA [sB; sD] uABD abd_reach uABD_run.

Theorem C81_distribute : forall {E : Env} {HE : EnvOk E} {T : Type} {K : Key T} {vok : T -> Prop} {KO : KeyOk K vok}
    s ts us u v,
  SetReach vok s -> (forall t, In t ts -> SetReach vok t) -> Forall2 (fun t x => s_intersection s t = Ok x) ts us ->
  s_unionN ts = Ok u -> s_unionN us = Ok v -> exists w, s_intersection s u = Ok w /\ s_equal w v = Ok true.
Proof. exact @c81_distribute. Qed.
Print Assumptions C81_distribute.
Example C81_distribute_case := C81_distribute sA [sB; sD] [iB; iD] uBD uI sA_reach bd_reach inter_runs uBD_run uI_run.
Example C81_distribute_run : (shownSet (s_intersection sA uBD), shownSet (Ok uI)) =
  (Some [1; 2; 3], Some [101; 2; 3])%Z.
Proof. vm_compute. reflexivity. Qed.

Theorem C81_difference : forall {E : Env} {HE : EnvOk E} {T : Type} {K : Key T} {vok : T -> Prop} {KO : KeyOk K vok}
    s t ts d ds u v,
  SetReach vok s -> (forall x, In x (t :: ts) -> SetReach vok x) -> Forall2 (fun x y => s_difference s x = Ok y) (t :: ts) (d :: ds) ->
  s_unionN (t :: ts) = Ok u -> s_intersectionN (d :: ds) = Ok v -> exists w, s_difference s u = Ok w /\ s_equal w v = Ok true.
Proof. exact @c81_difference. Qed.
Print Assumptions C81_difference.
Example C81_difference_case := C81_difference sA sB [sD] dB [dD] uBD iDD sA_reach bd_reach diff_runs uBD_run iDD_run.
Example C81_difference_run : (shownSet (s_difference sA uBD), shownSet (Ok iDD)) =
  (Some [5; 9], Some [9; 5])%Z.
Proof. vm_compute. reflexivity. Qed.
