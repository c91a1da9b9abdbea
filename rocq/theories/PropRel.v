(** * PropRel: pkg/rel (C40-C42).

    Generated by tools/genprops.py from SpecRel.v and tools/examples/PropRel.txt.
    Every theorem is followed by a case that meets its hypotheses. *)
From Verif Require Import Base Bits Env EnvFacts Node Iter Tree TreeFacts SetApi SetFacts MapApi MapFacts GroupFacts Reach Spec SpecSet SpecMap Rel RelFacts RelVal SpecRel ExampleData.

(** Attributes: the natural numbers below 2^64; 2k and 2k+1 have the same hash. *)
#[local] Instance KA : Key Z := {|
  veq := Z.eqb;
  vhash := fun z seed => wrap 64 (Z.to_N z / 2 + seed);
|}.
Definition kokA (z : Z) : Prop := (0 <= z < 2 ^ 64)%Z.
#[local] Instance KA_ok : KeyOk KA kokA.
Proof.
  constructor; cbn; intros; try (apply wrap_lt).
  - apply Z.eqb_refl.
  - rewrite Z.eqb_sym. auto.
  - rewrite Z.eqb_eq in *. congruence.
  - rewrite Z.eqb_eq in *. congruence.
Qed.
Lemma KA_few : FewCollisions kokA.
Proof.
  assert (HW : forall z, kokA z -> vhash z 0 = (Z.to_N z / 2)%N).
  { intros z Hz. unfold kokA in Hz. cbn. rewrite N.add_0_r. apply wrap_small.
    apply N.le_lt_trans with (Z.to_N z); [apply N.div_le_upper_bound; lia|]. change (2 ^ 64)%N with (Z.to_N (2 ^ 64)). lia. }
  intros a b c Ha Hb Hc. rewrite !HW by auto. unfold kokA in *. change (@veq Z KA) with Z.eqb. rewrite !Z.eqb_eq. intros H1 H2.
  pose proof (N.div_mod (Z.to_N a) 2 ltac:(lia)). pose proof (N.div_mod (Z.to_N b) 2 ltac:(lia)). pose proof (N.div_mod (Z.to_N c) 2 ltac:(lia)).
  pose proof (N.mod_lt (Z.to_N a) 2 ltac:(lia)). pose proof (N.mod_lt (Z.to_N b) 2 ltac:(lia)). pose proof (N.mod_lt (Z.to_N c) 2 ltac:(lia)).
  clear HW. rewrite H1, H2 in *. generalize dependent (Z.to_N c / 2)%N. intros q. intros.
  assert (Hm : forall n, (n < 2 -> n = 0 \/ n = 1)%N) by (intros; lia).
  destruct (Hm _ H4) as [E1|E1]; destruct (Hm _ H5) as [E2|E2]; destruct (Hm _ H6) as [E3|E3]; rewrite ?E1, ?E2, ?E3 in *; clear H4 H5 H6 E1 E2 E3 Hm; lia.
Qed.

(** Values: integers and, nested to any depth, relations. *)
#[local] Existing Instance valKey.
#[local] Existing Instance valKeyOk.
#[local] Existing Instance valRel.
#[local] Existing Instance valRelOk.
Notation vok := (valok (kok := kokA)).
Notation tuple := (gomap Z val).
Notation relation := (set (gomap Z val)).
Definition ints (l : list (list Z)) : list (list val) := map (map VInt) l.
Lemma ints_ok (header : list Z) l : forallb (fun row => Nat.eqb (length row) (length header)) l = true ->
  forall row, In row (ints l) -> length row = length header /\ forall v, In v row -> vok v.
Proof.
  intros H row Hrow. unfold ints in Hrow. apply in_map_iff in Hrow as (r & <- & Hr). rewrite forallb_forall in H. specialize (H r Hr).
  apply Nat.eqb_eq in H. rewrite map_length. split; auto. intros v Hv. apply in_map_iff in Hv as (z & <- & _). exact Logic.I.
Qed.
(** {|a, b| (10, 20), (10, 21), (11, 20), (12, 22), (10, 21)|} with a = 1, b = 2. *)
Definition hS : list Z := [1; 2]%Z.
Definition rawS : list (list Z) := [[10; 20]; [10; 21]; [11; 20]; [12; 22]; [10; 21]]%Z.
Definition rowsS : list (list val) := ints rawS.
Definition rS : relation := Eval vm_compute in okOr s_empty (r_new hS rowsS).
(** {|b, c| (20, 30), (21, 30), (21, 31), (25, 30)|} with c = 4. *)
Definition hT : list Z := [2; 4]%Z.
Definition rawT : list (list Z) := [[20; 30]; [21; 30]; [21; 31]; [25; 30]]%Z.
Definition rowsT : list (list val) := ints rawT.
Definition rT : relation := Eval vm_compute in okOr s_empty (r_new hT rowsT).
(** {|e| (1), (2)|} with e = 5. *)
Definition hU : list Z := [5]%Z.
Definition rawU : list (list Z) := [[1]; [2]]%Z.
Definition rowsU : list (list val) := ints rawU.
Definition rU : relation := Eval vm_compute in okOr s_empty (r_new hU rowsU).
Definition none : relation := s_empty.
(** What a relation holds, in the order of the iterator: the values of some attributes. *)
Definition mapM {A B} (f : A -> res B) : list A -> res (list B) :=
  fix go l := match l with [] => Ok [] | a :: l => b <- f a ;; bs <- go l ;; Ok (b :: bs) end.
Definition show (attrs : list Z) (r : res relation) : res (list (list (option val))) :=
  r <- r ;; l <- s_elements r ;; mapM (fun t => mapM (fun a => m_get t a) attrs) l.
Ltac inKA := intros; unfold hS, hT, hU in *; cbn [In] in *; repeat match goal with
  | H : _ \/ _ |- _ => destruct H as [H|H]; [rewrite <- H; clear H|]
  | H : False |- _ => destruct H
  end; unfold kokA; lia.
Ltac relOk H := let r := fresh in let E1 := fresh in let HR := fresh in
  destruct H as (r & E1 & HR & _); vm_compute in E1; injection E1 as <-; exact HR.
Lemma rS_ok : Rel kokA vok rS. Proof. relOk (c41_new hS rowsS ltac:(inKA) (ints_ok hS rawS eq_refl)). Qed.
Lemma rT_ok : Rel kokA vok rT. Proof. relOk (c41_new hT rowsT ltac:(inKA) (ints_ok hT rawT eq_refl)). Qed.
Lemma rU_ok : Rel kokA vok rU. Proof. relOk (c41_new hU rowsU ltac:(inKA) (ints_ok hU rawU eq_refl)). Qed.
Lemma none_ok : Rel kokA vok none. Proof. apply sok_empty. Qed.
Lemma rS_header : Uniform kokA rS hS.
Proof. exact (c41_new_header hS rowsS rS ltac:(inKA) (ints_ok hS rawS eq_refl) ltac:(vm_compute; reflexivity)). Qed.
Lemma rT_header : Uniform kokA rT hT.
Proof. exact (c41_new_header hT rowsT rT ltac:(inKA) (ints_ok hT rawT eq_refl) ltac:(vm_compute; reflexivity)). Qed.
Lemma rU_header : Uniform kokA rU hU.
Proof. exact (c41_new_header hU rowsU rU ltac:(inKA) (ints_ok hU rawU eq_refl) ltac:(vm_compute; reflexivity)). Qed.
(** The attribute sets {b} and {a, b}, the maps {9: {b}} and {9: {a}, 10: {b}}. *)
Definition sb : set Z := Eval vm_compute in okOr s_empty (s_new [2]%Z).
Definition sa : set Z := Eval vm_compute in okOr s_empty (s_new [1]%Z).
Lemma sb_ok : sok kokA sb.
Proof. destruct (s_new_ok (vok := kokA) [2]%Z) as (r & E1 & H & _); [intros v Hv; inKA|]. vm_compute in E1. injection E1 as <-. exact H. Qed.
Lemma sa_ok : sok kokA sa.
Proof. destruct (s_new_ok (vok := kokA) [1]%Z) as (r & E1 & H & _); [intros v Hv; inKA|]. vm_compute in E1. injection E1 as <-. exact H. Qed.
Definition AA1 : gomap Z (set Z) := Eval vm_compute in okOr m_empty (m_new [mkKV 9%Z sb]).
Definition AA2 : gomap Z (set Z) := Eval vm_compute in okOr m_empty (m_new [mkKV 9%Z sa; mkKV 10%Z sb]).
Lemma AA1_new : m_new [mkKV 9%Z sb] = Ok AA1. Proof. vm_compute. reflexivity. Qed.
Lemma AA2_new : m_new [mkKV 9%Z sa; mkKV 10%Z sb] = Ok AA2. Proof. vm_compute. reflexivity. Qed.
Lemma AA1_single : Single kokA AA1 9%Z sb.
Proof. apply c42_single; [inKA|apply sb_ok|apply AA1_new]. Qed.
Lemma AA2_ok : AttrMap kokA AA2.
Proof.
  apply (proj2 (proj2 (c41_reach (kok := kokA) (valok := vok)))). apply (mr_new _ _ _ _ _ _ [mkKV 9%Z sa; mkKV 10%Z sb]); [|apply AA2_new].
  intros kv [<-|[<-|[]]]; (split; [cbn; inKA|]); [apply sa_ok|apply sb_ok].
Qed.
Definition nS : relation := Eval vm_compute in okOr s_empty (r_nest rS AA1).
Lemma nS_nest : r_nest rS AA1 = Ok nS. Proof. vm_compute. reflexivity. Qed.
(** An attribute of a relation made by New is one of the header. *)
Lemma fresh_header (s : relation) (hs : list Z) a A : Rel kokA vok s -> Uniform kokA s hs -> kokA a -> among hs a = false -> Fresh s a A.
Proof.
  intros Hs [_ Hu] Ha Hn t Ht. right. destruct (At t a) as [v|] eqn:Ev; auto.
  rewrite (proj1 (Hu t Ht a Ha)) in Hn by eauto. discriminate.
Qed.
Lemma rS_fresh : Fresh rS 9%Z sb.
Proof. apply (fresh_header rS hS); [apply rS_ok|apply rS_header|inKA|reflexivity]. Qed.
Lemma nS_ok : Rel kokA vok nS.
Proof. exact (proj1 (c42_nest_one rS AA1 9%Z sb nS rS_ok AA1_single rS_fresh nS_nest)). Qed.

Theorem C40_join_partial : forall {E : Env} {HE : EnvOk E} {X : Type} {V : Type} {KX : Key X} {kok : X -> Prop} {KO : KeyOk KX kok} {ZV : Zero V} {KV : Key V} {valok : V -> Prop} {KVO : KeyOk KV valok}
    s t hs ht r,
  Rel kok valok s -> Rel kok valok t -> Uniform kok s hs -> Uniform kok t ht ->
  s_isEmpty s = true \/ s_isEmpty t = false -> r_join [s; t] = Ok r ->
  Rel kok valok r /\ Uniform kok r (hs ++ ht) /\
  forall x, Tup kok valok x -> Has r x <->
    HasAttrs kok x (hs ++ ht) /\ (exists a, m_project x hs = Ok a /\ Has s a) /\ (exists b, m_project x ht = Ok b /\ Has t b).
Proof. exact @c40_join. Qed.
Print Assumptions C40_join_partial.
Definition rST : relation := Eval vm_compute in okOr s_empty (r_join [rS; rT]).
Lemma rST_join : r_join [rS; rT] = Ok rST. Proof. vm_compute. reflexivity. Qed.
Example C40_join_case := C40_join_partial rS rT hS hT rST rS_ok rT_ok rS_header rT_header (or_intror eq_refl) rST_join.
Example C40_join_run : show [1; 2; 4]%Z (r_join [rS; rT]) =
  Ok (map (map (fun z => Some (VInt z))) [[10; 20; 30]; [11; 20; 30]; [10; 21; 30]; [10; 21; 31]]%Z).
Proof. vm_compute. reflexivity. Qed.

Theorem C40_joinN_partial : forall {E : Env} {HE : EnvOk E} {X : Type} {V : Type} {KX : Key X} {kok : X -> Prop} {KO : KeyOk KX kok} {ZV : Zero V} {KV : Key V} {valok : V -> Prop} {KVO : KeyOk KV valok}
    (ps : list (set (gomap X V) * list X)) r,
  (forall s hs, In (s, hs) ps -> Rel kok valok s /\ Uniform kok s hs) ->
  (forall s hs, In (s, hs) (tl ps) -> s_isEmpty s = false) -> r_join (map fst ps) = Ok r ->
  Rel kok valok r /\ Uniform kok r (flat_map snd ps) /\
  forall x, Tup kok valok x -> Has r x <->
    HasAttrs kok x (flat_map snd ps) /\ forall s hs, In (s, hs) ps -> exists a, m_project x hs = Ok a /\ Has s a.
Proof. exact @c40_joinN. Qed.
Print Assumptions C40_joinN_partial.
Definition psSTU : list (relation * list Z) := [(rS, hS); (rT, hT); (rU, hU)].
Lemma psSTU_ok s hs : In (s, hs) psSTU -> Rel kokA vok s /\ Uniform kokA s hs.
Proof.
  unfold psSTU. cbn [In]. intros [H|[H|[H|[]]]]; injection H as <- <-; auto using rS_ok, rS_header, rT_ok, rT_header, rU_ok, rU_header.
Qed.
Lemma psSTU_ne s hs : In (s, hs) (tl psSTU) -> s_isEmpty s = false.
Proof. unfold psSTU. cbn [In tl]. intros [H|[H|[]]]; injection H as <- <-; reflexivity. Qed.
Definition rSTU : relation := Eval vm_compute in okOr s_empty (r_join [rS; rT; rU]).
Lemma rSTU_join : r_join (map fst psSTU) = Ok rSTU. Proof. vm_compute. reflexivity. Qed.
Example C40_joinN_case := C40_joinN_partial psSTU rSTU psSTU_ok psSTU_ne rSTU_join.
Example C40_joinN_run : (r <- r_join [rS; rT; rU] ;; Ok (s_count r)) = Ok 8%Z.
Proof. vm_compute. reflexivity. Qed.

Theorem C40_returns_partial : forall {E : Env} {HE : EnvOk E} {X : Type} {V : Type} {KX : Key X} {kok : X -> Prop} {KO : KeyOk KX kok} {ZV : Zero V} {KV : Key V} {valok : V -> Prop} {KVO : KeyOk KV valok}
    (ps : list (set (gomap X V) * list X)),
  FewCollisions kok -> ps <> [] ->
  (forall s hs, In (s, hs) ps -> Rel kok valok s /\ Uniform kok s hs) ->
  (forall s hs, In (s, hs) (tl ps) -> s_isEmpty s = false) -> exists r, r_join (map fst ps) = Ok r.
Proof. exact @c40_returns. Qed.
Print Assumptions C40_returns_partial.
Example C40_returns_case := C40_returns_partial psSTU KA_few ltac:(discriminate) psSTU_ok psSTU_ne.

Theorem C40_empty_first : forall {E : Env} {X : Type} {V : Type} {KX : Key X} {ZV : Zero V} {KV : Key V}
    (s : set (gomap X V)) ts,
  s_isEmpty s = true -> r_join (s :: ts) = Ok s.
Proof. exact @c40_empty_first. Qed.
Print Assumptions C40_empty_first.
Example C40_empty_first_case := C40_empty_first none [rS; rT] eq_refl.

Theorem C40_empty_second : forall {E : Env} {X : Type} {V : Type} {KX : Key X} {ZV : Zero V} {KV : Key V}
    (s t : set (gomap X V)),
  s_isEmpty t = true -> r_join [s; t] = Ok s.
Proof. exact @c40_empty_second. Qed.
Print Assumptions C40_empty_second.
Example C40_empty_second_case : r_join [rS; none] = Ok rS := C40_empty_second rS none eq_refl.
(** The property is false if the second operand is empty: no tuple has a projection in it, but the join has four. *)
Theorem C40_refuted : ~ (forall (s t r : relation) hs ht, Rel kokA vok s -> Rel kokA vok t -> Uniform kokA s hs -> Uniform kokA t ht ->
  r_join [s; t] = Ok r -> forall x, Tup kokA vok x -> Has r x -> exists b, m_project x ht = Ok b /\ Has t b).
Proof.
  intros H. destruct (s_elements rS) as [l| |] eqn:El; [|vm_compute in El; discriminate..].
  destruct l as [|x l]; [vm_compute in El; discriminate|].
  assert (Hx : Holds rS x) by (exists (x :: l); split; [exact El|left; auto]).
  assert (Hu : Uniform kokA none hT).
  { split; [exact (proj1 rT_header)|]. intros t (l' & E1 & Hin). vm_compute in E1. injection E1 as <-. destruct Hin. }
  destruct (H rS none rS hS hT rS_ok none_ok rS_header Hu (C40_empty_second rS none eq_refl) x) as (b & _ & Hb).
  - exact (holds_tup rS x rS_ok Hx).
  - vm_compute in El. injection El as <- _. vm_compute. reflexivity.
  - unfold Has in Hb. cbn in Hb. discriminate.
Qed.
Print Assumptions C40_refuted.

Theorem C40_no_operand : forall {E : Env} {X : Type} {V : Type} {KX : Key X} {ZV : Zero V} {KV : Key V},
  r_join (X := X) (V := V) [] = Panic.
Proof. exact @c40_no_operand. Qed.
Print Assumptions C40_no_operand.
Example C40_no_operand_case := C40_no_operand (X := Z) (V := val).

Theorem C40_commutes : forall {E : Env} {HE : EnvOk E} {X : Type} {V : Type} {KX : Key X} {kok : X -> Prop} {KO : KeyOk KX kok} {ZV : Zero V} {KV : Key V} {valok : V -> Prop} {KVO : KeyOk KV valok}
    s t hs ht r r',
  Rel kok valok s -> Rel kok valok t -> Uniform kok s hs -> Uniform kok t ht ->
  s_isEmpty s = s_isEmpty t -> r_join [s; t] = Ok r -> r_join [t; s] = Ok r' -> s_equal r r' = Ok true.
Proof. exact @c40_commutes. Qed.
Print Assumptions C40_commutes.
Definition rTS : relation := Eval vm_compute in okOr s_empty (r_join [rT; rS]).
Lemma rTS_join : r_join [rT; rS] = Ok rTS. Proof. vm_compute. reflexivity. Qed.
Example C40_commutes_case := C40_commutes rS rT hS hT rST rTS rS_ok rT_ok rS_header rT_header eq_refl rST_join rTS_join.

Theorem C41_reach : forall {E : Env} {HE : EnvOk E} {X : Type} {V : Type} {KX : Key X} {kok : X -> Prop} {KO : KeyOk KX kok} {ZV : Zero V} {KV : Key V} {valok : V -> Prop} {KVO : KeyOk KV valok},
  (forall t : gomap X V, MapReach kok valok t -> Tup kok valok t) /\ (forall r : set (gomap X V), SetReach (K := mapKey) (Tup kok valok) r -> Rel kok valok r) /\
  (forall AA : gomap X (set X), MapReach kok (sok kok) AA -> AttrMap kok AA).
Proof. exact @c41_reach. Qed.
Print Assumptions C41_reach.
Example C41_reach_case := C41_reach (kok := kokA) (valok := vok).

Theorem C41_new : forall {E : Env} {HE : EnvOk E} {X : Type} {V : Type} {KX : Key X} {kok : X -> Prop} {KO : KeyOk KX kok} {ZV : Zero V} {KV : Key V} {valok : V -> Prop} {KVO : KeyOk KV valok}
    header rows,
  (forall h, In h header -> kok h) ->
  (forall row, In row rows -> length row = length header /\ forall v, In v row -> valok v) ->
  exists r, r_new header rows = Ok r /\ Rel kok valok r /\
    forall x, Tup kok valok x -> Has r x <-> exists row, In row rows /\ TupleIs kok x (lastFor (List.combine header row)).
Proof. exact @c41_new. Qed.
Print Assumptions C41_new.
Example C41_new_case := C41_new hS rowsS ltac:(inKA) (ints_ok hS rawS eq_refl).
Example C41_new_run : (r <- r_new hS rowsS ;; Ok (s_count r)) = Ok 4%Z.
Proof. vm_compute. reflexivity. Qed.

Theorem C41_new_header : forall {E : Env} {HE : EnvOk E} {X : Type} {V : Type} {KX : Key X} {kok : X -> Prop} {KO : KeyOk KX kok} {ZV : Zero V} {KV : Key V} {valok : V -> Prop} {KVO : KeyOk KV valok}
    header rows r,
  (forall h, In h header -> kok h) ->
  (forall row, In row rows -> length row = length header /\ forall v, In v row -> valok v) ->
  r_new header rows = Ok r -> Uniform kok r header.
Proof. exact @c41_new_header. Qed.
Print Assumptions C41_new_header.
Example C41_new_header_case := C41_new_header hS rowsS rS ltac:(inKA) (ints_ok hS rawS eq_refl) ltac:(vm_compute; reflexivity).

Theorem C41_new_mismatch : forall {E : Env} {HE : EnvOk E} {X : Type} {V : Type} {KX : Key X} {kok : X -> Prop} {KO : KeyOk KX kok} {ZV : Zero V} {KV : Key V} {valok : V -> Prop} {KVO : KeyOk KV valok}
    header rows row,
  (forall h, In h header -> kok h) ->
  (forall row, In row rows -> forall v, In v row -> valok v) ->
  In row rows -> length row <> length header -> r_new header rows = Panic.
Proof. exact @c41_new_mismatch. Qed.
Print Assumptions C41_new_mismatch.
Lemma mismatch_ok row : In row (ints [[1; 2]; [3]]%Z) -> forall v, In v row -> vok v.
Proof. cbn. intros [<-|[<-|[]]] v Hv; cbn in Hv; repeat (destruct Hv as [<-|Hv]; [exact Logic.I|]); destruct Hv. Qed.
Example C41_new_mismatch_case := C41_new_mismatch hS (ints [[1; 2]; [3]]%Z) [VInt 3] ltac:(inKA) mismatch_ok
  (or_intror (or_introl eq_refl)) ltac:(discriminate).

Theorem C41_project : forall {E : Env} {HE : EnvOk E} {X : Type} {V : Type} {KX : Key X} {kok : X -> Prop} {KO : KeyOk KX kok} {ZV : Zero V} {KV : Key V} {valok : V -> Prop} {KVO : KeyOk KV valok}
    s attrs,
  Rel kok valok s -> (forall k, In k attrs -> kok k) ->
  exists r, r_project s attrs = Ok r /\ Rel kok valok r /\
    forall x, Tup kok valok x -> Has r x <-> exists t, Holds s t /\ TupleIs kok x (Only (among attrs) (At t)).
Proof. exact @c41_project. Qed.
Print Assumptions C41_project.
Example C41_project_case := C41_project rS [1; 7]%Z rS_ok ltac:(inKA).
Example C41_project_run : show [1; 2]%Z (r_project rS [1; 7]%Z) = Ok [[Some (VInt 12); None]; [Some (VInt 10); None]; [Some (VInt 11); None]].
Proof. vm_compute. reflexivity. Qed.

Theorem C41_cartesian : forall {E : Env} {HE : EnvOk E} {X : Type} {V : Type} {KX : Key X} {kok : X -> Prop} {KO : KeyOk KX kok} {ZV : Zero V} {KV : Key V} {valok : V -> Prop} {KVO : KeyOk KV valok}
    rels r,
  (forall s, In s rels -> Rel kok valok s) -> r_cartesian rels = Ok r ->
  Rel kok valok r /\ forall x, Tup kok valok x -> Has r x <-> exists es, Forall2 Holds rels es /\ TupleIs kok x (Updated es).
Proof. exact @c41_cartesian. Qed.
Print Assumptions C41_cartesian.
Definition rCU : relation := Eval vm_compute in okOr s_empty (r_cartesian [rS; rT; rU]).
Lemma rCU_product : r_cartesian [rS; rT; rU] = Ok rCU. Proof. vm_compute. reflexivity. Qed.
Lemma rSTU_ok s : In s [rS; rT; rU] -> Rel kokA vok s.
Proof. intros [<-|[<-|[<-|[]]]]; auto using rS_ok, rT_ok, rU_ok. Qed.
Example C41_cartesian_case := C41_cartesian [rS; rT; rU] rCU rSTU_ok rCU_product.
Example C41_cartesian_run : s_count rCU = 24%Z.
Proof. vm_compute. reflexivity. Qed.

Theorem C41_cartesian_returns : forall {E : Env} {HE : EnvOk E} {X : Type} {V : Type} {KX : Key X} {kok : X -> Prop} {KO : KeyOk KX kok} {ZV : Zero V} {KV : Key V} {valok : V -> Prop} {KVO : KeyOk KV valok}
    rels,
  FewCollisions kok -> (forall s, In s rels -> Rel kok valok s) -> exists r, r_cartesian rels = Ok r.
Proof. exact @c41_cartesian_returns. Qed.
Print Assumptions C41_cartesian_returns.
Example C41_cartesian_returns_case := C41_cartesian_returns [rS; rT; rU] KA_few rSTU_ok.

Theorem C42_nest_partial : forall {E : Env} {HE : EnvOk E} {X : Type} {V : Type} {KX : Key X} {kok : X -> Prop} {KO : KeyOk KX kok} {ZV : Zero V} {KV : Key V} {valok : V -> Prop} {KVO : KeyOk KV valok} {RV : RelVal X V} {RVO : RelValOk (kok := kok) (valok := valok)}
    s AA r,
  Rel kok valok s -> AttrMap kok AA -> r_nest s AA = Ok r ->
  exists ka, (forall j, kok j -> among ka j = true <-> forall k A, kok k -> At AA k = Some A -> Has A j) /\
  Rel kok valok r /\ (forall x, Holds r x -> exists t, Holds s t /\ NestTuple kok valok s (among ka) AA t x) /\
  (forall y, Tup kok valok y -> Has r y <-> exists t u, Holds s t /\ NestTuple kok valok s (among ka) AA t u /\ @veq _ mapKey u y = true).
Proof. exact @c42_nest. Qed.
Print Assumptions C42_nest_partial.
Definition nS2 : relation := Eval vm_compute in okOr s_empty (r_nest rS AA2).
Lemma nS2_nest : r_nest rS AA2 = Ok nS2. Proof. vm_compute. reflexivity. Qed.
Example C42_nest_case := C42_nest_partial rS AA2 nS2 rS_ok AA2_ok nS2_nest.

Theorem C42_nest_returns : forall {E : Env} {HE : EnvOk E} {X : Type} {V : Type} {KX : Key X} {kok : X -> Prop} {KO : KeyOk KX kok} {ZV : Zero V} {KV : Key V} {valok : V -> Prop} {KVO : KeyOk KV valok} {RV : RelVal X V} {RVO : RelValOk (kok := kok) (valok := valok)}
    s AA,
  FewCollisions kok -> Rel kok valok s -> AttrMap kok AA -> m_count AA <> 0%Z -> exists r, r_nest s AA = Ok r.
Proof. exact @c42_nest_returns. Qed.
Print Assumptions C42_nest_returns.
Example C42_nest_returns_case := C42_nest_returns rS AA2 KA_few rS_ok AA2_ok ltac:(discriminate).

Theorem C42_no_attribute : forall {E : Env} {HE : EnvOk E} {X : Type} {V : Type} {KX : Key X} {kok : X -> Prop} {KO : KeyOk KX kok} {ZV : Zero V} {KV : Key V} {RV : RelVal X V}
    s AA,
  AttrMap kok AA -> m_count AA = 0%Z -> r_nest (V := V) s AA = Panic.
Proof. exact @c42_no_attribute. Qed.
Print Assumptions C42_no_attribute.
Lemma AA0_ok : AttrMap kokA m_empty.
Proof. apply (proj2 (proj2 (c41_reach (kok := kokA) (valok := vok)))). constructor. Qed.
Example C42_no_attribute_case := C42_no_attribute (kok := kokA) rS m_empty AA0_ok eq_refl.

Theorem C42_several : forall {E : Env} {HE : EnvOk E} {X : Type} {V : Type} {KX : Key X} {kok : X -> Prop} {KO : KeyOk KX kok} {ZV : Zero V} {KV : Key V} {valok : V -> Prop} {KVO : KeyOk KV valok} {RV : RelVal X V} {RVO : RelValOk (kok := kok) (valok := valok)}
    s AA r,
  Rel kok valok s -> AttrMap kok AA -> (forall j, kok j -> exists k A, kok k /\ At AA k = Some A /\ ~ Has A j) ->
  r_nest s AA = Ok r -> forall x, Holds r x -> exists t, Holds s t /\ forall j v, kok j -> At t j = Some v -> Same (At x j) (Some v).
Proof. exact @c42_several. Qed.
Print Assumptions C42_several.
Lemma AA2_disjoint j : kokA j -> exists k A, kokA k /\ At AA2 k = Some A /\ ~ Has A j.
Proof.
  intros Hj. destruct (Z.eqb_spec j 1) as [->|Hn].
  - exists 10%Z, sb. split; [inKA|]. split; [reflexivity|]. intros H. vm_compute in H. discriminate.
  - exists 9%Z, sa. split; [inKA|]. split; [reflexivity|]. intros H. apply (has_lookup (vok := kokA) sa j sa_ok Hj) in H. apply H.
    change (sel sa) with [1%Z]. assert (Hq : (1 =? j)%Z = false) by (apply Z.eqb_neq; congruence).
    unfold NodeWf.lookup, find. change (@veq Z KA) with Z.eqb. rewrite Hq. reflexivity.
Qed.
Example C42_several_case := C42_several rS AA2 nS2 rS_ok AA2_ok AA2_disjoint nS2_nest.
(** The property is false for two nested attributes: every tuple of Nest(rS, {9: {a}, 10: {b}}) still has both
    a and b, and there is one for each tuple of rS. *)
Theorem C42_several_refuted :
  r_nest rS AA2 = Ok nS2 /\ s_count nS2 = 4%Z /\
  (l <- s_elements nS2 ;; mapM (fun t => a <- m_get t 1%Z ;; b <- m_get t 2%Z ;; Ok (a, b)) l)
  = Ok (map (fun p => (Some (VInt (fst p)), Some (VInt (snd p)))) [(11, 20); (10, 20); (12, 22); (10, 21)]%Z).
Proof. split; [exact nS2_nest|]. split; [reflexivity|]. vm_compute. reflexivity. Qed.
Print Assumptions C42_several_refuted.

Theorem C42_single : forall {E : Env} {X : Type} {KX : Key X} {kok : X -> Prop} {KO : KeyOk KX kok}
    a A AA,
  kok a -> sok kok A -> m_new [mkKV a A] = Ok AA -> Single kok AA a A.
Proof. exact @c42_single. Qed.
Print Assumptions C42_single.
Example C42_single_case := C42_single (kok := kokA) 9%Z sb AA1 ltac:(inKA) sb_ok AA1_new.

Theorem C42_nest_one_partial : forall {E : Env} {HE : EnvOk E} {X : Type} {V : Type} {KX : Key X} {kok : X -> Prop} {KO : KeyOk KX kok} {ZV : Zero V} {KV : Key V} {valok : V -> Prop} {KVO : KeyOk KV valok} {RV : RelVal X V} {RVO : RelValOk (kok := kok) (valok := valok)}
    s AA a A r,
  Rel kok valok s -> Single kok AA a A -> Fresh s a A -> r_nest s AA = Ok r ->
  Rel kok valok r /\
  (forall x, Holds r x -> exists t, Holds s t /\ NestOne kok valok s a A t x) /\
  (forall t, Holds s t -> exists x, Holds r x /\ NestOne kok valok s a A t x) /\
  (forall t t' x x', Holds s t -> Holds s t' -> Holds r x -> Holds r x' -> NestOne kok valok s a A t x -> NestOne kok valok s a A t' x' -> SameRest kok (inA A) t t' <-> x = x').
Proof. exact @c42_nest_one. Qed.
Print Assumptions C42_nest_one_partial.
Example C42_nest_one_case := C42_nest_one_partial rS AA1 9%Z sb nS rS_ok AA1_single rS_fresh nS_nest.
Example C42_nest_one_run :
  (l <- s_elements nS ;; mapM (fun t => a <- m_get t 1%Z ;; n <- m_get t 9%Z ;;
     match n with Some (VRel _ p) => sh <- show [2]%Z (Ok p) ;; Ok (a, sh) | _ => Panic end) l)
  = Ok [(Some (VInt 10), [[Some (VInt 21)]; [Some (VInt 20)]]); (Some (VInt 11), [[Some (VInt 20)]]); (Some (VInt 12), [[Some (VInt 22)]])].
Proof. vm_compute. reflexivity. Qed.

Theorem C42_inverse_partial : forall {E : Env} {HE : EnvOk E} {X : Type} {V : Type} {KX : Key X} {kok : X -> Prop} {KO : KeyOk KX kok} {ZV : Zero V} {KV : Key V} {valok : V -> Prop} {KVO : KeyOk KV valok} {RV : RelVal X V} {RVO : RelValOk (kok := kok) (valok := valok)}
    s AA a A r u,
  Rel kok valok s -> Single kok AA a A -> Fresh s a A -> r_nest s AA = Ok r -> r_unnest r a = Ok u ->
  Rel kok valok u /\ SameMembers (Tup kok valok) u s /\ s_equal u s = Ok true.
Proof. exact @c42_inverse. Qed.
Print Assumptions C42_inverse_partial.
Definition uS : relation := Eval vm_compute in okOr s_empty (r_unnest nS 9%Z).
Lemma uS_unnest : r_unnest nS 9%Z = Ok uS. Proof. vm_compute. reflexivity. Qed.
Example C42_inverse_case := C42_inverse_partial rS AA1 9%Z sb nS uS rS_ok AA1_single rS_fresh nS_nest uS_unnest.

Theorem C42_inverse_returns : forall {E : Env} {HE : EnvOk E} {X : Type} {V : Type} {KX : Key X} {kok : X -> Prop} {KO : KeyOk KX kok} {ZV : Zero V} {KV : Key V} {valok : V -> Prop} {KVO : KeyOk KV valok} {RV : RelVal X V} {RVO : RelValOk (kok := kok) (valok := valok)}
    s AA a A,
  FewCollisions kok -> Rel kok valok s -> Single kok AA a A -> Fresh s a A ->
  exists r u, r_nest s AA = Ok r /\ r_unnest r a = Ok u.
Proof. exact @c42_inverse_returns. Qed.
Print Assumptions C42_inverse_returns.
Example C42_inverse_returns_case := C42_inverse_returns rS AA1 9%Z sb KA_few rS_ok AA1_single rS_fresh.

Theorem C42_unnest_partial : forall {E : Env} {HE : EnvOk E} {X : Type} {V : Type} {KX : Key X} {kok : X -> Prop} {KO : KeyOk KX kok} {ZV : Zero V} {KV : Key V} {valok : V -> Prop} {KVO : KeyOk KV valok} {RV : RelVal X V} {RVO : RelValOk (kok := kok) (valok := valok)}
    s a r,
  Rel kok valok s -> kok a -> (forall x, Holds s x -> Nested kok a x) -> r_unnest s a = Ok r ->
  Rel kok valok r /\ forall y, Tup kok valok y -> Has r y <-> exists x, Holds s x /\ UnnestTuple kok a x y.
Proof. exact @c42_unnest. Qed.
Print Assumptions C42_unnest_partial.
Lemma nS_nested x : Holds nS x -> Nested kokA 9%Z x.
Proof.
  intros Hx. destruct (c42_nest_one rS AA1 9%Z sb nS rS_ok AA1_single rS_fresh nS_nest) as (_ & H & _).
  destruct (H x Hx) as (t & Ht & Tx & Hk & p & Ep & [Hp HP] & Hn). intros v Ev. rewrite Ep in Ev. injection Ev as <-.
  exists p. split; auto. intros b b' j Hb _ Hj Hv Hxj Hbj. exfalso.
  assert (Tb : Tup kokA vok b) by exact (holds_tup p b Hp Hb).
  assert (HB : Has p b). { apply (has_smem p b Hp Tb). apply smem_iff. exists b. split; [apply (holds_sel p b Hp); auto|]. apply (veq_refl (vok := Tup kokA vok)); auto. }
  apply HP in HB as (t' & _ & _ & HT); auto. specialize (HT j Hj). specialize (Hk j Hj Hv). unfold Only in HT. unfold Drop in Hk.
  destruct (inA sb j); [destruct (At x j)|destruct (At b j)]; cbn in Hk, HT; try congruence; contradiction.
Qed.
Example C42_unnest_case := C42_unnest_partial nS 9%Z uS nS_ok ltac:(inKA) nS_nested uS_unnest.
Example C42_unnest_run : show [1; 2; 9]%Z (r_unnest nS 9%Z) =
  Ok (map (fun p => [Some (VInt (fst p)); Some (VInt (snd p)); None]) [(10, 21); (10, 20); (12, 22); (11, 20)]%Z).
Proof. vm_compute. reflexivity. Qed.

Theorem C42_unnest_returns : forall {E : Env} {HE : EnvOk E} {X : Type} {V : Type} {KX : Key X} {kok : X -> Prop} {KO : KeyOk KX kok} {ZV : Zero V} {KV : Key V} {valok : V -> Prop} {KVO : KeyOk KV valok} {RV : RelVal X V} {RVO : RelValOk (kok := kok) (valok := valok)}
    s a,
  FewCollisions kok -> Rel kok valok s -> kok a -> (forall x, Holds s x -> Nested kok a x) -> exists r, r_unnest s a = Ok r.
Proof. exact @c42_unnest_returns. Qed.
Print Assumptions C42_unnest_returns.
Example C42_unnest_returns_case := C42_unnest_returns nS 9%Z KA_few nS_ok ltac:(inKA) nS_nested.
(** {(a: 10, n: {})}: a nested relation without tuples contributes nothing. *)
Definition tupleE : tuple := Eval vm_compute in okOr m_empty (m_new [mkKV 1%Z (VInt 10); mkKV 9%Z (toAny none)]).
Example C42_unnest_empty_run : (s <- s_new [tupleE] ;; r <- r_unnest s 9%Z ;; Ok (s_count s, s_count r)) = Ok (1%Z, 0%Z).
Proof. vm_compute. reflexivity. Qed.
