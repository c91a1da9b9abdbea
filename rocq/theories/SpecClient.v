(** * SpecClient: programs that use sets and maps (C67). A program makes sets and maps and asks them questions; what it does next may
    depend on the answers. Its answers are those it would get from mathematical sets and finite maps. *)
From Coq Require Import Sorting.Permutation.
From Verif Require Import Base Bits Env EnvFacts Node NodeWf NodeBin NodeBin2 NodeUn Iter Tree TreeFacts SetApi SetFacts MapApi MapFacts Clash Reach Spec SpecSet SpecMap SpecLaws.

(** ** Programs *)

(** Calls that make a set, from the sets and maps made before; these are named by number. *)
Inductive setCmd (X V : Type) :=
| CNew (vs : list X)                                  (* set.go:33-39 NewSet *)
| CBuild (cap : Z) (ops : list (sbOp X))              (* set_builder.go:14-41: NewSetBuilder(cap), Add, Remove and Finish, then Finish *)
| CWith (i : nat) (v : X)                             (* set.go:195-198 *)
| CWithout (i : nat) (v : X)                          (* set.go:201-204 *)
| CUnion (i j : nat)                                  (* set.go:256-259 *)
| CIntersection (i j : nat)                           (* set.go:251-253 *)
| CDifference (i j : nat)                             (* set.go:262-264 *)
| CSymmetricDifference (i j : nat)                    (* set.go:268-272 *)
| CWhere (i : nat) (p : X -> bool)                    (* set.go:207-214 *)
| CMapped (i : nat) (f : X -> X)                      (* set.go:217-219 SetMap *)
| CKeys (i : nat).                                    (* map.go:125-131 Keys of a map *)
(** Calls that make a map. *)
Inductive mapCmd (X V : Type) :=
| CNewMap (kvs : list (keyValue X V))                 (* map.go:24-30 *)
| CBuildMap (cap : Z) (ops : list (mbOp X V))         (* map_builder.go:12-50: NewMapBuilder(cap), Put, Remove and Finish, then Finish *)
| CPut (i : nat) (k : X) (v : V)                      (* map.go:71-74 With *)
| CDrop (i : nat) (k : X)                             (* map.go:78-81 Without *)
| CUpdate (i j : nat)                                 (* map.go:204-212 *)
| CMerge (i j : nat) (f : X -> V -> V -> V)           (* map.go:194-200 *)
| CProject (i : nat) (ks : list X)                    (* map.go:143-151 *)
| CFilter (i : nat) (p : X -> V -> bool)              (* map.go:154-162 Where *)
| CConvert (i : nat) (f : X -> V -> V)                (* map.go:166-173 MapMap *)
| CFromKeys (i : nat) (f : X -> V).                   (* map.go:33-40 NewMapFromKeys of a set *)
(** Questions, with the type of the answer. *)
Inductive query (X V : Type) : Type -> Type :=
| QHas (i : nat) (v : X) : query X V bool             (* set.go:190-192 *)
| QCount (i : nat) : query X V Z                      (* set.go:59-61 *)
| QIsEmpty (i : nat) : query X V bool                 (* set.go:54-56 *)
| QEqual (i j : nat) : query X V bool                 (* set.go:173-176 *)
| QSubset (i j : nat) : query X V bool                (* set.go:185-187 *)
| QElements (i : nat) : query X V (list X)            (* set.go:68-74 *)
| QGet (i : nat) (k : X) : query X V (option V)       (* map.go:90-95 *)
| QMapHas (i : nat) (k : X) : query X V bool          (* map.go:84-87 *)
| QMapCount (i : nat) : query X V Z                   (* map.go:57-59 *)
| QMapIsEmpty (i : nat) : query X V bool              (* map.go:52-54 *)
| QMapEqual (i j : nat) : query X V bool              (* map.go:225-232 *)
| QEntries (i : nat) : query X V (list (X * V)).      (* map.go:266-268: all that Range yields *)
Arguments CNew {X V}. Arguments CBuild {X V}. Arguments CWith {X V}. Arguments CWithout {X V}. Arguments CUnion {X V}.
Arguments CIntersection {X V}. Arguments CDifference {X V}. Arguments CSymmetricDifference {X V}. Arguments CWhere {X V}.
Arguments CMapped {X V}. Arguments CKeys {X V}. Arguments CNewMap {X V}. Arguments CBuildMap {X V}. Arguments CPut {X V}.
Arguments CDrop {X V}. Arguments CUpdate {X V}. Arguments CMerge {X V}. Arguments CProject {X V}. Arguments CFilter {X V}.
Arguments CConvert {X V}. Arguments CFromKeys {X V}. Arguments QHas {X V}. Arguments QCount {X V}. Arguments QIsEmpty {X V}.
Arguments QEqual {X V}. Arguments QSubset {X V}. Arguments QElements {X V}. Arguments QGet {X V}. Arguments QMapHas {X V}.
Arguments QMapCount {X V}. Arguments QMapIsEmpty {X V}. Arguments QMapEqual {X V}. Arguments QEntries {X V}.

(** A program: after each answer it may go on differently. A new set or map gets the next number of its kind. *)
Inductive client (X V A : Type) :=
| Done (a : A)
| MakeSet (c : setCmd X V) (next : client X V A)
| MakeMap (c : mapCmd X V) (next : client X V A)
| Ask {B : Type} (q : query X V B) (next : B -> client X V A).
Arguments Done {X V A}. Arguments MakeSet {X V A}. Arguments MakeMap {X V A}. Arguments Ask {X V A B}.

(** ** What the arguments must satisfy *)
Section Valid.
Context {X V : Type} {KX : Key X}.
(** The elements are valid, and functions do not tell equal elements apart. *)
Definition setCmdOk (kok : X -> Prop) (c : setCmd X V) : Prop :=
  match c with
  | CNew vs => forall v, In v vs -> kok v
  | CBuild _ ops => Forall (sbOpOk kok) ops
  | CWith _ v | CWithout _ v => kok v
  | CWhere _ p => respects kok p
  | CMapped _ f => forall a, kok a -> kok (f a) /\ forall b, kok b -> veq a b = true -> veq (f a) (f b) = true
  | _ => True
  end.
Definition mapCmdOk (kok : X -> Prop) (c : mapCmd X V) : Prop :=
  match c with
  | CNewMap kvs => forall kv, In kv kvs -> kok (kv_key kv)
  | CBuildMap _ ops => Forall (mbOpOk kok) ops
  | CPut _ k _ | CDrop _ k => kok k
  | CUpdate _ _ => True
  | CMerge _ _ f => forall a b x y, kok a -> kok b -> veq a b = true -> f a x y = f b x y
  | CProject _ ks => forall k, In k ks -> kok k
  | CFilter _ p => forall a b x, kok a -> kok b -> veq a b = true -> p a x = p b x
  | CConvert _ f => forall a b x, kok a -> kok b -> veq a b = true -> f a x = f b x
  | CFromKeys _ f => forall a b, kok a -> kok b -> veq a b = true -> f a = f b
  end.
Definition queryOk (kok : X -> Prop) {B} (q : query X V B) : Prop :=
  match q with QHas _ v => kok v | QGet _ k | QMapHas _ k => kok k | _ => True end.
(** The answers are what the program must be ready for: lists of valid elements. *)
Definition answerOk (kok : X -> Prop) {B} (q : query X V B) : B -> Prop :=
  match q with
  | QElements _ => fun l => forall e, In e l -> kok e
  | QEntries _ => fun l => forall kv, In kv l -> kok (fst kv)
  | _ => fun _ => True
  end.
Fixpoint clientOk (kok : X -> Prop) {A} (c : client X V A) : Prop :=
  match c with
  | Done _ => True
  | MakeSet c k => setCmdOk kok c /\ clientOk kok k
  | MakeMap c k => mapCmdOk kok c /\ clientOk kok k
  | Ask q k => queryOk kok q /\ forall b, answerOk kok q b -> clientOk kok (k b)
  end.
(** The program does not ask for the elements in the order of the set. *)
Definition plainQuery {B} (q : query X V B) : Prop := match q with QElements _ | QEntries _ => False | _ => True end.
Fixpoint plain {A} (c : client X V A) : Prop :=
  match c with
  | Done _ => True
  | MakeSet _ k => plain k
  | MakeMap _ k => plain k
  | Ask q k => plainQuery q /\ forall b, plain (k b)
  end.

(** ** The meaning of a program: sets are predicates, maps are functions *)
Context {KV : Key V}.
Definition mathState : Type := list (X -> Prop) * list (X -> option V).
Definition theP (st : mathState) (i : nat) : X -> Prop := nth i (fst st) (fun _ => False).
Definition theF (st : mathState) (i : nat) : X -> option V := nth i (snd st) (fun _ => None).
(** [Q] is what the call makes, as far as valid elements are concerned. *)
Definition setCmdMeans (kok : X -> Prop) (c : setCmd X V) (st : mathState) (Q : X -> Prop) : Prop :=
  forall w, kok w ->
    (Q w <-> match c with
             | CNew vs => exists v, In v vs /\ veq v w = true
             | CBuild _ ops => fst (sb_math (fun _ => False) ops) w
             | CWith i v => veq v w = true \/ theP st i w
             | CWithout i v => veq v w = false /\ theP st i w
             | CUnion i j => theP st i w \/ theP st j w
             | CIntersection i j => theP st i w /\ theP st j w
             | CDifference i j => theP st i w /\ ~ theP st j w
             | CSymmetricDifference i j => theP st i w /\ ~ theP st j w \/ theP st j w /\ ~ theP st i w
             | CWhere i p => theP st i w /\ p w = true
             | CMapped i f => exists e, kok e /\ theP st i e /\ veq (f e) w = true
             | CKeys i => theF st i w <> None
             end).
Definition mapCmdMeans (kok : X -> Prop) (c : mapCmd X V) (st : mathState) (F : X -> option V) : Prop :=
  forall k, kok k ->
    match c with
    | CNewMap kvs => F k = lastFor (map (fun kv => (kv_key kv, kv_val kv)) kvs) k
    | CBuildMap _ ops => F k = fst (mb_math (fun _ => None) ops) k
    | CPut i x v => F k = if veq x k then Some v else theF st i k
    | CDrop i x => F k = if veq x k then None else theF st i k
    | CUpdate i j => F k = match theF st j k with Some b => Some b | None => theF st i k end
    | CMerge i j f => F k = match theF st i k, theF st j k with
                            | Some a, Some b => Some (f k a b)
                            | Some a, None => Some a
                            | None, o => o
                            end
    | CProject i ks => F k = if existsb (fun x => veq x k) ks then theF st i k else None
    | CFilter i p => F k = match theF st i k with Some v => if p k v then Some v else None | None => None end
    | CConvert i f => F k = match theF st i k with Some v => Some (f k v) | None => None end
    | CFromKeys i f => forall v, F k = Some v <-> theP st i k /\ v = f k
    end.
(** The answers a question may get. *)
Definition queryMeans (kok : X -> Prop) {B} (q : query X V B) (st : mathState) : B -> Prop :=
  match q with
  | QHas i v => fun b => b = true <-> theP st i v
  | QCount i => fun n => exists l, Lists kok l (theP st i) /\ n = Z.of_nat (length l)
  | QIsEmpty i => fun b => b = true <-> forall v, kok v -> ~ theP st i v
  | QEqual i j => fun b => b = true <-> forall v, kok v -> (theP st i v <-> theP st j v)
  | QSubset i j => fun b => b = true <-> forall v, kok v -> theP st i v -> theP st j v
  | QElements i => fun l => Lists kok l (theP st i)
  | QGet i k => fun o => o = theF st i k
  | QMapHas i k => fun b => b = true <-> theF st i k <> None
  | QMapCount i => fun n => exists l, ListsMap kok l (theF st i) /\ n = Z.of_nat (length l)
  | QMapIsEmpty i => fun b => b = true <-> forall k, kok k -> theF st i k = None
  | QMapEqual i j => fun b => b = true <-> forall k, kok k -> match theF st i k, theF st j k with
                                                              | Some x, Some y => veq x y = true
                                                              | None, None => True
                                                              | _, _ => False
                                                              end
  | QEntries i => fun l => ListsMap kok l (theF st i)
  end.
(** The program, run with mathematical sets and maps from [st], may end with [a]. *)
Fixpoint means (kok : X -> Prop) {A} (c : client X V A) (st : mathState) (a : A) : Prop :=
  match c with
  | Done x => a = x
  | MakeSet c k => exists Q, setCmdMeans kok c st Q /\ means kok k (fst st ++ [Q], snd st) a
  | MakeMap c k => exists F, mapCmdMeans kok c st F /\ means kok k (fst st, snd st ++ [F]) a
  | Ask q k => exists b, queryMeans kok q st b /\ means kok (k b) st a
  end.
End Valid.

(** ** Running a program with the library *)
Section Run.
Context {E : Env} {X V : Type} {KX : Key X} {KV : Key V} {ZV : Zero V}.
Definition codeState : Type := list (set X) * list (gomap X V).
(** Numbers not yet in use stand for the zero Set and Map, which are empty (set.go:14-17, map.go:15-17). *)
Definition theS (st : codeState) (i : nat) : set X := nth i (fst st) s_empty.
Definition theM (st : codeState) (i : nat) : gomap X V := nth i (snd st) m_empty.
(** The calls, modelled in SetApi and MapApi from set.go:33-272, set_builder.go:14-41 and map.go:125-131. *)
Definition setCmdRun (c : setCmd X V) (st : codeState) : res (set X) :=
  match c with
  | CNew vs => s_new vs
  | CBuild cap ops => '(b, _) <- sb_run (newSetBuilder cap) ops ;; Ok (fst (sb_finish b))
  | CWith i v => s_with (theS st i) v
  | CWithout i v => s_without (theS st i) v
  | CUnion i j => s_union (theS st i) (theS st j)
  | CIntersection i j => s_intersection (theS st i) (theS st j)
  | CDifference i j => s_difference (theS st i) (theS st j)
  | CSymmetricDifference i j => s_symmetricDifference (theS st i) (theS st j)
  | CWhere i p => s_where (theS st i) p
  | CMapped i f => s_map (theS st i) f
  | CKeys i => m_keys (theM st i)
  end.
(** The calls modelled in MapApi from map.go:24-212 and map_builder.go:12-50. *)
Definition mapCmdRun (c : mapCmd X V) (st : codeState) : res (gomap X V) :=
  match c with
  | CNewMap kvs => m_new kvs
  | CBuildMap cap ops => '(b, _) <- mb_run (newMapBuilder cap) ops ;; Ok (fst (mb_finish b))
  | CPut i k v => m_with (theM st i) k v
  | CDrop i k => m_without (theM st i) k
  | CUpdate i j => m_update (theM st i) (theM st j)
  | CMerge i j f => m_merge (theM st i) (theM st j) f
  | CProject i ks => m_project (theM st i) ks
  | CFilter i p => m_where (theM st i) p
  | CConvert i f => m_map (theM st i) f
  | CFromKeys i f => m_fromKeys (theS st i) f
  end.
(** The calls modelled in SetApi and MapApi from set.go:54-192 and map.go:52-268. *)
Definition queryRun {B} (q : query X V B) (st : codeState) : res B :=
  match q with
  | QHas i v => s_has (theS st i) v
  | QCount i => Ok (s_count (theS st i))
  | QIsEmpty i => Ok (s_isEmpty (theS st i))
  | QEqual i j => s_equal (theS st i) (theS st j)
  | QSubset i j => s_isSubsetOf (theS st i) (theS st j)
  | QElements i => s_elements (theS st i)
  | QGet i k => m_get (theM st i) k
  | QMapHas i k => m_has (theM st i) k
  | QMapCount i => Ok (m_count (theM st i))
  | QMapIsEmpty i => Ok (m_isEmpty (theM st i))
  | QMapEqual i j => m_equal (theM st i) (theM st j)
  | QEntries i => m_entries (theM st i)
  end.
(** Running the program: each call ends before the next begins. *)
Fixpoint runClient {A} (c : client X V A) (st : codeState) : res A :=
  match c with
  | Done a => Ok a
  | MakeSet c k => s <- setCmdRun c st ;; runClient k (fst st ++ [s], snd st)
  | MakeMap c k => m <- mapCmdRun c st ;; runClient k (fst st, snd st ++ [m])
  | Ask q k => b <- queryRun q st ;; runClient (k b) st
  end.
End Run.

(** Three valid, pairwise unequal elements never have the same hash. *)
Definition noTriples {T} (K : Key T) (vok : T -> Prop) : Prop :=
  forall a b c, vok a -> vok b -> vok c -> veq a b = false -> veq a c = false -> veq b c = false ->
    vhash a 0 = vhash b 0 -> vhash a 0 = vhash c 0 -> False.

(** There are two lists of valid, pairwise unequal elements on which a union panics (C19). *)
Definition Clashes {E : Env} {T} {K : Key T} (vok : T -> Prop) : Prop :=
  exists l1 l2 : list T, (forall e, In e l1 -> vok e) /\ (forall e, In e l2 -> vok e) /\ Unequal l1 /\ Unequal l2 /\ Overfull l1 l2.

Section Refine.
Context {E : Env} {HE : EnvOk E} {X V : Type} {KX : Key X} {kok : X -> Prop} {KO : KeyOk KX kok} {KV : Key V} {ZV : Zero V}.
Local Opaque maxTreeDepth fanout fb.
Let anyV := fun _ : V => True.

Lemma answers_ext s (P Q : X -> Prop) : Answers kok s P -> (forall w, kok w -> P w <-> Q w) -> Answers kok s Q.
Proof.
  intros (H1 & l & H2 & (H3 & H4 & H5) & H6) H. split.
  - intros v Hv. destruct (H1 v Hv) as (x & Ex & Hx). exists x. split; auto. rewrite <- H; auto.
  - exists l. split; auto. split; auto. split; auto. split; auto. intros v Hv. rewrite <- H; auto.
Qed.
Lemma mapAnswers_ext (m : gomap X V) F G : MapAnswers kok m F -> (forall k, kok k -> F k = G k) -> MapAnswers kok m G.
Proof.
  intros (H1 & l & H2 & (H3 & H4 & H5) & H6) H. split.
  - intros k Hk. rewrite <- H; auto.
  - exists l. split; auto. split; auto. split; auto. split; auto. intros k v Hk. rewrite <- H; auto.
Qed.
Lemma answers_has s P w : Answers kok s P -> kok w -> Has s w <-> P w.
Proof. intros [H _] Hw. destruct (H w Hw) as (x & Ex & Hx). unfold Has. rewrite Ex. rewrite <- Hx. split; congruence. Qed.

(** The sets of the two runs answer alike. *)
Definition agreeS (S : list (set X)) (P : list (X -> Prop)) : Prop := Forall2 (fun s Q => SetReach kok s /\ Answers kok s Q) S P.
Definition agreeM (M : list (gomap X V)) (F : list (X -> option V)) : Prop := Forall2 (fun m G => MapReach kok anyV m /\ MapAnswers kok m G) M F.

Lemma empty_answers : Answers kok (@s_empty X) (fun _ => False).
Proof.
  destruct (c03_count (vok := kok) (@s_empty X) (sr_empty X KX kok)) as (H & Hi & _). apply (answers_ext _ _ _ H).
  intros w Hw. split; [|contradiction]. apply Hi; auto.
Qed.
Lemma m_empty_answers : MapAnswers kok (@m_empty X V) (fun _ => None).
Proof.
  destruct (c28_newMap (kok := kok) (V := V) []) as (m & Em & Hm); [intros ? []|]. cbn in Em. injection Em as <-. exact Hm.
Qed.
Lemma agreeS_nth S P i : agreeS S P -> SetReach kok (nth i S s_empty) /\ Answers kok (nth i S s_empty) (nth i P (fun _ => False)).
Proof.
  intros H. revert i. induction H as [|s Q S P Hs H IH]; intros [|i]; cbn [nth]; auto;
    (split; [apply sr_empty|apply empty_answers]).
Qed.
Lemma agreeM_nth M F i : agreeM M F -> MapReach kok anyV (nth i M m_empty) /\ MapAnswers kok (nth i M m_empty) (nth i F (fun _ => None)).
Proof.
  intros H. revert i. induction H as [|s Q S P Hs H IH]; intros [|i]; cbn [nth]; auto;
    (split; [apply mr_empty|apply m_empty_answers]).
Qed.

Lemma union_bad s t : SetReach kok s -> SetReach kok t -> (s_union s t = Panic /\ Clashes kok) \/ exists r, s_union s t = Ok r.
Proof.
  intros Hs Ht. destruct (c04_range s Hs) as (ls & _ & Els & (H1 & H2 & _)). destruct (c04_range t Ht) as (lt & _ & Elt & (H3 & H4 & _)).
  destruct (c19_union_exact s t ls lt Hs Ht Els Elt) as [[Ho Ep]|[_ Hr]]; [left|right; auto]. split; auto. exists ls, lt. auto.
Qed.
Lemma merge_bad (m n : gomap X V) f : MapReach kok anyV m -> MapReach kok anyV n ->
  (m_merge m n f = Panic /\ m_update m n = Panic /\ Clashes kok) \/ ((exists r, m_merge m n f = Ok r) /\ (exists r, m_update m n = Ok r)).
Proof.
  intros Hm Hn. destruct (c21_answers m Hm) as (F & (_ & lm & Em & (H1 & H2 & _) & _) & _). destruct (c21_answers n Hn) as (G & (_ & ln & En & (H3 & H4 & _) & _) & _).
  destruct (c19_merge_exact m n f lm ln Hm Hn Em En) as [(Ho & E1 & E2)|(_ & Hr)]; [left|right; auto]. split; auto. split; auto.
  exists (map fst lm), (map fst ln). split; [|split; [|auto]]; intros e He; apply in_map_iff in He as (kv & <- & He); auto.
Qed.

(** One call that makes a set. *)
Lemma setCmd_ok c S M P F : setCmdOk kok c -> agreeS S P -> agreeM M F ->
  (setCmdRun c (S, M) = Panic /\ Clashes kok) \/
  exists s Q, setCmdRun c (S, M) = Ok s /\ SetReach kok s /\ Answers kok s Q /\ setCmdMeans kok c (P, F) Q.
Proof.
  intros Hc HS HM. destruct c as [vs|cap ops|i v|i v|i j|i j|i j|i j|i p|i f|i]; cbn [setCmdOk] in Hc; cbn [setCmdRun]; unfold theS, theM; cbn [fst snd];
    try (destruct (agreeS_nth S P i HS) as [Ri Ai]); try (destruct (agreeS_nth S P j HS) as [Rj Aj]);
    try (destruct (agreeM_nth M F i HM) as [RMi AMi]).
  - right. destruct (c16_newSet (vok := kok) vs Hc) as (s & Es & Hs & _). exists s, (fun w => exists v, In v vs /\ veq v w = true).
    split; auto. split; [eapply sr_new; eauto|]. split; auto. intros w Hw. reflexivity.
  - right. assert (Hc' : Forall (sbOpOk kok) (ops ++ [SbFinish])) by (apply Forall_app; split; auto; repeat constructor).
    destruct (c16_builder (vok := kok) cap ops Hc) as (b & out & Eb & (Hb & _) & Ho).
    destruct (c16_finished_reachable (vok := kok) ops (newSetBuilder cap) b out (sbr_new X KX kok cap) Hc Eb) as [_ Rb].
    pose proof (sr_finish X KX kok b Rb) as Rf. rewrite Eb. cbn [bind].
    exists (fst (sb_finish b)), (fst (sb_math (fun _ => False) ops)). split; auto. split; auto. split; [|intros w Hw; reflexivity].
    apply (answers_ext _ (Has (fst (sb_finish b)))). { apply (c03_count (fst (sb_finish b)) Rf). }
    intros w Hw. destruct (Hb w Hw) as (x & Ex & Hx). rewrite <- Hx. clear Hx.
    assert (s_has (fst (sb_finish b)) w = Ok x) as Hh by exact Ex. unfold Has. rewrite Hh. split; congruence.
  - right. destruct (c01_with (vok := kok) _ v Ri Hc) as (r & Er & Hr & _). exists r. eexists. split; [exact Er|]. split; [eapply sr_with; eauto|].
    split; [exact Hr|]. intros w Hw. cbv beta. rewrite (answers_has _ _ w Ai Hw). reflexivity.
  - right. destruct (c01_without (vok := kok) _ v Ri Hc) as (r & Er & Hr & _). exists r. eexists. split; [exact Er|]. split; [eapply sr_without; eauto|].
    split; [exact Hr|]. intros w Hw. cbv beta. rewrite (answers_has _ _ w Ai Hw). reflexivity.
  - destruct (union_bad _ _ Ri Rj) as [Hp|(r & Er)]; [left; exact Hp|right]. exists r. eexists. split; [exact Er|].
    split; [apply (sr_union _ _ _ _ _ _ Ri Rj Er)|]. split; [apply (c02_union _ _ _ Ri Rj Er)|].
    intros w Hw. cbv beta. rewrite (answers_has _ _ w Ai Hw), (answers_has _ _ w Aj Hw). reflexivity.
  - right. destruct (c02_intersection (vok := kok) _ _ Ri Rj) as (r & Er & Hr & _). exists r. eexists. split; [exact Er|].
    split; [apply (sr_intersection _ _ _ _ _ _ Ri Rj Er)|]. split; [exact Hr|].
    intros w Hw. cbv beta. rewrite (answers_has _ _ w Ai Hw), (answers_has _ _ w Aj Hw). reflexivity.
  - right. destruct (c02_difference (vok := kok) _ _ Ri Rj) as (r & Er & Hr & _). exists r. eexists. split; [exact Er|].
    split; [apply (sr_difference _ _ _ _ _ _ Ri Rj Er)|]. split; [exact Hr|].
    intros w Hw. cbv beta. rewrite (answers_has _ _ w Ai Hw), (answers_has _ _ w Aj Hw). reflexivity.
  - destruct (c02_difference (vok := kok) _ _ Ri Rj) as (r1 & Er1 & _). destruct (c02_difference (vok := kok) _ _ Rj Ri) as (r2 & Er2 & _).
    pose proof (sr_difference _ _ _ _ _ _ Ri Rj Er1) as R1. pose proof (sr_difference _ _ _ _ _ _ Rj Ri Er2) as R2.
    destruct (union_bad _ _ R1 R2) as [[Hp Hb]|(r & Er)].
    + left. split; auto. unfold s_symmetricDifference. rewrite Er1. cbn [bind]. rewrite Er2. exact Hp.
    + right. assert (Ex : s_symmetricDifference (nth i S s_empty) (nth j S s_empty) = Ok r) by (unfold s_symmetricDifference; rewrite Er1; cbn [bind]; rewrite Er2; exact Er).
      exists r. eexists. split; [exact Ex|]. split; [apply (sr_symmetricDifference _ _ _ _ _ _ Ri Rj Ex)|]. split; [apply (c02_symmetricDifference _ _ _ Ri Rj Ex)|].
      intros w Hw. cbv beta. rewrite (answers_has _ _ w Ai Hw), (answers_has _ _ w Aj Hw). reflexivity.
  - right. destruct (c08_comprehension (vok := kok) _ p Ri Hc) as (r & Er & Hr). exists r. eexists. split; [exact Er|]. split; [eapply sr_where; eauto|].
    split; [exact Hr|]. intros w Hw. cbv beta. rewrite (answers_has _ _ w Ai Hw). reflexivity.
  - right. pose proof (fun e He => holds_ok (vok := kok) _ e (sreach_ok _ Ri) He) as Hok.
    destruct (c09_map (vok := kok) (uok := kok) (nth i S s_empty) f Ri) as (r & Er & Hr & _). { intros e He. apply Hc; auto. }
    exists r. eexists. split; [exact Er|]. split. { apply (sr_map X KX kok X KX kok (nth i S s_empty) f r); auto. intros v Hv. apply Hc; auto. }
    split; [exact Hr|]. intros w Hw. cbv beta. split.
    + intros (e & He & Hq). exists e. split; auto. split; auto. rewrite <- (answers_has _ _ e Ai) by auto. apply (holds_has (vok := kok)); auto. apply sreach_ok; auto.
    + intros (e & He & Hp & Hq). unfold theP in Hp. cbn [fst] in Hp. rewrite <- (answers_has _ _ e Ai) in Hp by auto.
      destruct (c01_has _ e Ri He) as (b & Eb & Hb). unfold Has in Hp. rewrite Eb in Hp. injection Hp as ->.
      destruct (proj1 Hb eq_refl) as (e' & He' & Hq'). exists e'. split; auto.
      apply (veq_trans (vok := kok) _ (f e)); auto; try (apply Hc; auto).
  - right. destruct (c24_keys (kok := kok) _ RMi) as (r & Er & Hr & _). exists r. eexists. split; [exact Er|]. split; [eapply sr_keys; eauto|].
    split; [exact Hr|]. intros w Hw. cbv beta. unfold theF. cbn [snd]. split.
    + intros (v & Hv). unfold Maps in Hv. rewrite (proj1 AMi w Hw) in Hv. congruence.
    + intros H. destruct (nth i F (fun _ => None) w) as [v|] eqn:Ef; [|congruence]. exists v. unfold Maps. rewrite (proj1 AMi w Hw). congruence.
Qed.

(** One call that makes a map. *)
Lemma entries_answers (r : gomap X V) G : MapReach kok anyV r -> (forall k v, kok k -> G k = Some v <-> exists k', Entry r k' v /\ veq k' k = true) -> MapAnswers kok r G.
Proof.
  intros Hr HG. destruct (c21_answers r Hr) as (F' & HF & HE'). apply (mapAnswers_ext _ _ _ HF). intros k Hk.
  destruct (G k) as [v|] eqn:Eg.
  - apply HE'; auto. apply HG; auto.
  - destruct (F' k) as [v|] eqn:Ef; auto. apply HE' in Ef; auto. apply HG in Ef; auto. congruence.
Qed.
Lemma answers_entries (m : gomap X V) F : MapReach kok anyV m -> MapAnswers kok m F -> forall k v, kok k -> F k = Some v <-> exists k', Entry m k' v /\ veq k' k = true.
Proof.
  intros Hr (HF & _) k v Hk. rewrite <- (c25_get_entry m k v Hr Hk). unfold Maps. rewrite HF by auto. split; congruence.
Qed.
Lemma entry_key (m : gomap X V) k v : MapReach kok anyV m -> Entry m k v -> kok k.
Proof. intros Hr He. apply (entry_ok (kok := kok) m k v); auto. apply (mreach_ok (valok := anyV)); auto. Qed.

Lemma mapCmd_ok c S M P F : mapCmdOk kok c -> agreeS S P -> agreeM M F ->
  (mapCmdRun c (S, M) = Panic /\ Clashes kok) \/
  exists m G, mapCmdRun c (S, M) = Ok m /\ MapReach kok anyV m /\ MapAnswers kok m G /\ mapCmdMeans kok c (P, F) G.
Proof.
  intros Hc HS HM. assert (HanyV : forall v : V, anyV v) by (intros; exact Logic.I).
  destruct c as [kvs|cap ops|i k v|i k|i j|i j f|i ks|i p|i f|i f]; cbn [mapCmdOk] in Hc; cbn [mapCmdRun]; unfold theS, theM; cbn [fst snd];
    try (destruct (agreeM_nth M F i HM) as [Ri Ai]); try (destruct (agreeM_nth M F j HM) as [Rj Aj]);
    try (destruct (agreeS_nth S P i HS) as [RSi ASi]).
  - right. destruct (c28_newMap (kok := kok) kvs Hc) as (m & Em & Hm). exists m. eexists. split; [exact Em|]. split; [apply (mr_new X V KX ZV kok anyV kvs); auto|].
    split; [exact Hm|]. intros x Hx. reflexivity.
  - right. destruct (c28_builder (kok := kok) cap ops Hc) as (b & out & Eb & (Hb & _) & Ho).
    assert (Rb : MBReach kok anyV b).
    { assert (HG : forall ops b0 b1 out, Forall (mbOpOk kok) ops -> MBReach kok anyV b0 -> mb_run b0 ops = Ok (b1, out) -> MBReach kok anyV b1).
      { clear - HanyV. induction ops as [|o ops IH]; intros b0 b1 out Hops Hb0 He; cbn [mb_run] in He.
        - injection He as <- <-. auto.
        - apply Forall_inv in Hops as Ho. apply Forall_inv_tail in Hops. destruct o as [k v|k|].
          + destruct (mb_put b0 k v) as [b2| |] eqn:E2; try discriminate. cbn [bind] in He. apply (IH b2 b1 out); auto. eapply mbr_put; eauto.
          + destruct (mb_remove b0 k) as [b2| |] eqn:E2; try discriminate. cbn [bind] in He. apply (IH b2 b1 out); auto. eapply mbr_remove; eauto.
          + pose proof (mbr_finish X V KX kok anyV b0 Hb0) as Hf. destruct (mb_finish b0) as [m b2]. cbn [snd] in Hf.
            destruct (mb_run b2 ops) as [[b3 out3]| |] eqn:E3; try discriminate. cbn [bind] in He. injection He as <- <-. apply (IH b2 b3 out3); auto. }
      apply (HG ops (newMapBuilder cap) b out); auto. apply mbr_new. }
    pose proof (mr_finish X V KX kok anyV b Rb) as Rf. rewrite Eb. cbn [bind].
    exists (fst (mb_finish b)), (fst (mb_math (fun _ => None) ops)). split; auto. split; auto. split; [|intros x Hx; reflexivity].
    destruct (c21_answers (fst (mb_finish b)) Rf) as (F' & HF & _). apply (mapAnswers_ext _ _ _ HF). intros x Hx.
    destruct (Hb x Hx) as [H1 _]. pose proof (proj1 HF x Hx) as H2.
    assert (m_get (fst (mb_finish b)) x = mb_get b x) as H3 by reflexivity. congruence.
  - right. destruct (c21_with _ _ k v Ri Ai Hc) as (r & Er & Hr & _). exists r. eexists. split; [exact Er|]. split; [eapply mr_with; eauto|].
    split; [exact Hr|]. intros x Hx. reflexivity.
  - right. destruct (c21_without _ _ k Ri Ai Hc) as (r & Er & Hr & _). exists r. eexists. split; [exact Er|]. split; [eapply mr_without; eauto|].
    split; [exact Hr|]. intros x Hx. reflexivity.
  - destruct (merge_bad _ _ (fun _ a _ => a) Ri Rj) as [(_ & Hp & Hb)|(_ & r & Er)]; [left; auto|right]. exists r. eexists. split; [exact Er|].
    split; [apply (mr_update _ _ _ _ _ _ _ _ _ Ri Rj Er)|]. split; [apply (c23_update _ _ _ _ _ Ri Rj Er Ai Aj)|]. intros x Hx. reflexivity.
  - destruct (merge_bad _ _ f Ri Rj) as [(Hp & _ & Hb)|((r & Er) & _)]; [left; auto|right]. exists r. eexists. split; [exact Er|].
    split; [apply (mr_merge _ _ _ _ _ _ _ _ _ _ Ri Rj (fun _ _ _ _ _ _ => HanyV _) Er)|].
    split; [apply (c22_merge_answers _ _ _ _ _ _ Ri Rj Er Ai Aj)|]. { intros a b x y Ha Hb. auto. } intros x Hx. reflexivity.
  - right. destruct (c25_project _ _ ks Ri Ai Hc) as (r & Er & Hr). exists r. eexists. split; [exact Er|]. split; [eapply mr_project; eauto|].
    split; [exact Hr|]. intros x Hx. reflexivity.
  - right. destruct (c25_where _ p Ri) as (r & Er & Hr). assert (Rr : MapReach kok anyV r) by (eapply mr_where; eauto).
    exists r, (fun k => match nth i F (fun _ => None) k with Some v => if p k v then Some v else None | None => None end).
    split; [exact Er|]. split; [exact Rr|]. split; [|intros x Hx; reflexivity]. apply entries_answers; auto. intros k v Hk.
    pose proof (answers_entries _ _ Ri Ai k) as HFk. split.
    + destruct (nth i F (fun _ => None) k) as [v'|] eqn:Ef; [|discriminate]. destruct (p k v') eqn:Ep; [|discriminate]. intros H. injection H as ->.
      destruct (proj1 (HFk v Hk) eq_refl) as (k' & He & Hq). exists k'. split; auto. apply Hr. split; auto.
      rewrite (Hc k' k v); auto. apply (entry_key _ _ _ Ri He).
    + intros (k' & He & Hq). apply Hr in He as [He Hp]. pose proof (entry_key _ _ _ Ri He) as Hk'.
      rewrite (proj2 (HFk v Hk)) by eauto. rewrite (Hc k' k v) in Hp by auto. rewrite Hp. auto.
  - right. destruct (c25_map (kok := kok) (valok := anyV) (nth i M m_empty) f Ri) as (r & Er & Hr). assert (Rr : MapReach kok anyV r) by (apply (mr_map X V V KX ZV ZV kok anyV anyV (nth i M m_empty) f); auto).
    exists r, (fun k => match nth i F (fun _ => None) k with Some v => Some (f k v) | None => None end).
    split; [exact Er|]. split; [exact Rr|]. split; [|intros x Hx; reflexivity]. apply entries_answers; auto. intros k v Hk.
    pose proof (answers_entries _ _ Ri Ai k) as HFk. split.
    + destruct (nth i F (fun _ => None) k) as [v'|] eqn:Ef; [|discriminate]. intros H. injection H as <-.
      destruct (proj1 (HFk v' Hk) eq_refl) as (k' & He & Hq). exists k'. split; auto. apply Hr. exists v'. split; auto. symmetry. apply Hc; auto. apply (entry_key _ _ _ Ri He).
    + intros (k' & He & Hq). apply Hr in He as (v' & He & ->). pose proof (entry_key _ _ _ Ri He) as Hk'.
      rewrite (proj2 (HFk v' Hk)) by eauto. rewrite (Hc k' k v') by auto. auto.
  - right. destruct (c25_fromKeys (kok := kok) (nth i S s_empty) f RSi) as (r & Er & Hr).
    assert (Rr : MapReach kok anyV r) by (apply (mr_fromKeys X V KX ZV kok anyV (nth i S s_empty) f); auto).
    destruct (c21_answers r Rr) as (G & HG & HGe). exists r, G. split; [exact Er|]. split; [exact Rr|]. split; [exact HG|].
    intros k Hk v. rewrite (HGe k v Hk). unfold theP. cbn [fst]. rewrite <- (answers_has _ _ k ASi Hk).
    destruct (c01_has _ k RSi Hk) as (b & Eb & Hb). unfold Has. rewrite Eb. split.
    + intros (k' & He & Hq). apply Hr in He as [He ->]. split; [f_equal; apply Hb; eauto|]. apply Hc; auto.
      apply (holds_ok (vok := kok) _ k' (sreach_ok _ RSi) He).
    + intros [H ->]. injection H as ->. destruct (proj1 Hb eq_refl) as (e & He & Hq). exists e. split; auto. apply Hr. split; auto.
      symmetry. apply Hc; auto. apply (holds_ok (vok := kok) _ e (sreach_ok _ RSi) He).
Qed.

(** One question. *)
Lemma query_ok {B} (q : query X V B) S M P F : queryOk kok q -> agreeS S P -> agreeM M F ->
  exists b, queryRun q (S, M) = Ok b /\ queryMeans kok q (P, F) b /\ answerOk kok q b.
Proof.
  intros Hq HS HM. destruct q as [i v|i|i|i j|i j|i|i k|i k|i|i|i j|i]; cbn [queryOk] in Hq; cbn [queryRun queryMeans answerOk]; unfold theS, theM, theP, theF; cbn [fst snd];
    try (destruct (agreeS_nth S P i HS) as [Ri Ai]; pose proof (fun w Hw => answers_has _ _ w Ai Hw) as Hi);
    try (destruct (agreeS_nth S P j HS) as [Rj Aj]; pose proof (fun w Hw => answers_has _ _ w Aj Hw) as Hj);
    try (destruct (agreeM_nth M F i HM) as [RMi AMi]); try (destruct (agreeM_nth M F j HM) as [RMj AMj]).
  - destruct (proj1 Ai v Hq) as (b & Eb & Hb). exists b. auto.
  - eexists. split; [reflexivity|]. split; auto. destruct Ai as (_ & l & _ & Hl & Hn). eauto.
  - eexists. split; [reflexivity|]. split; auto. destruct (c03_count _ Ri) as (_ & H & _). rewrite H. split; intros Hx w Hw; specialize (Hx w Hw); rewrite Hi in *; auto.
  - destruct (c05_equal _ _ Ri Rj) as (b & Eb & Hb). exists b. split; auto. split; auto. rewrite Hb. unfold SameMembers.
    split; intros Hx w Hw; specialize (Hx w Hw); rewrite Hi, Hj in *; auto.
  - destruct (c06_isSubsetOf _ _ Ri Rj) as (b & Eb & Hb). exists b. split; auto. split; auto. rewrite Hb.
    split; intros Hx w Hw; specialize (Hx w Hw); rewrite Hi, Hj in *; auto.
  - destruct Ai as (_ & l & El & Hl & _). exists l. split; auto. split; auto. apply Hl.
  - eexists. split; [apply (proj1 AMi k Hq)|]. auto.
  - pose proof (c21_variants _ _ k RMi AMi Hq) as H. destruct (nth i F (fun _ => None) k) as [v|]; destruct H as (_ & H & _); rewrite H; eexists; (split; [reflexivity|]); split; auto; split; congruence.
  - eexists. split; [reflexivity|]. split; auto. destruct AMi as (_ & l & _ & Hl & Hn). eauto.
  - eexists. split; [reflexivity|]. split; auto. destruct (c24_range _ RMi) as (l & _ & El & _ & _ & H & H1 & H2). rewrite H. split.
    + intros -> k Hk. destruct (nth i F (fun _ => None) k) as [v|] eqn:Ef; auto. destruct (H2 k v Hk) as (k' & [] & _). unfold Maps. rewrite (proj1 AMi k Hk). congruence.
    + intros Hn. destruct l as [|[k v] l]; auto. exfalso. pose proof (H1 k v (or_introl eq_refl)) as Hm.
      assert (Hk : kok k). { destruct AMi as (_ & l' & El' & (Hok & _) & _). rewrite El in El'. injection El' as <-. apply (Hok (k, v)). left; auto. }
      unfold Maps in Hm. rewrite (proj1 AMi k Hk), (Hn k Hk) in Hm. discriminate.
  - destruct (c26_equal _ _ _ _ RMi RMj AMi AMj) as (b & Eb & Hb). exists b. auto.
  - destruct AMi as (_ & l & El & Hl & _). exists l. split; auto. split; auto. apply Hl.
Qed.

(** ** Whole programs *)
Lemma c67_from {A} (c : client X V A) : forall S M P F, clientOk kok c ->
  Forall2 (fun s Q => SetReach kok s /\ Answers kok s Q) S P -> Forall2 (fun m G => MapReach kok (fun _ => True) m /\ MapAnswers kok m G) M F ->
  (runClient c (S, M) = Panic /\ Clashes kok) \/
  exists a, runClient c (S, M) = Ok a /\ means kok c (P, F) a.
Proof.
  induction c as [a|c k IH|c k IH|B q k IH]; intros S M P F Hc HS HM; cbn [clientOk] in Hc; cbn [runClient means].
  - right. exists a. auto.
  - destruct Hc as [Hc Hk]. destruct (setCmd_ok c S M P F Hc HS HM) as [[Ep Hb]|(s & Q & Es & Rs & As & Ms)]; [left; rewrite Ep; auto|].
    rewrite Es. cbn [bind]. destruct (IH (S ++ [s]) M (P ++ [Q]) F) as [Hp|(a & Ea & Ma)]; auto.
    { apply Forall2_app; auto. }
    right. exists a. split; auto. exists Q. auto.
  - destruct Hc as [Hc Hk]. destruct (mapCmd_ok c S M P F Hc HS HM) as [[Ep Hb]|(s & Q & Es & Rs & As & Ms)]; [left; rewrite Ep; auto|].
    rewrite Es. cbn [bind]. destruct (IH S (M ++ [s]) P (F ++ [Q])) as [Hp|(a & Ea & Ma)]; auto.
    { apply Forall2_app; auto. }
    right. exists a. split; auto. exists Q. auto.
  - destruct Hc as [Hq Hk]. destruct (query_ok q S M P F Hq HS HM) as (b & Eb & Mb & Ab). rewrite Eb. cbn [bind].
    destruct (IH b S M P F) as [Hp|(a & Ea & Ma)]; auto. right. exists a. split; auto. exists b. auto.
Qed.
Lemma c67_refines {A} (c : client X V A) : clientOk kok c ->
  (runClient c ([], []) = Panic /\ Clashes kok) \/ exists a, runClient c ([], []) = Ok a /\ means kok c ([], []) a.
Proof. intros Hc. apply c67_from; auto. Qed.

Lemma unequal_distinct (l : list X) : Unequal l -> distinct l.
Proof.
  induction l as [|a l IH]; intros H; constructor.
  - intros b Hb. apply In_nth_error in Hb as (i & Hi). apply (H O (S i) a b); auto.
  - apply IH. intros i j x y Hi Hj Hij. apply (H (S i) (S j)); auto.
Qed.
Lemma triple (l : list X) h : (forall e, In e l -> kok e) -> Unequal l -> (3 <= number (fun e => N.eqb (vhash e 0) h) l)%nat -> ~ noTriples KX kok.
Proof.
  intros Hok Hu Hn HT. unfold number in Hn. pose proof (distinct_filter (fun e => N.eqb (vhash e 0) h) l (unequal_distinct l Hu)) as Hd.
  assert (Hin : forall e, In e (filter (fun e => N.eqb (vhash e 0) h) l) -> kok e /\ vhash e 0 = h).
  { intros e He. apply filter_In in He as [He Hh]. apply N.eqb_eq in Hh. auto. }
  destruct (filter (fun e => N.eqb (vhash e 0) h) l) as [|a [|b [|c m]]]; cbn in Hn; try lia.
  inversion Hd as [|? ? Ha Hd1]; subst. inversion Hd1 as [|? ? Hb Hd2]; subst.
  destruct (Hin a) as [Ka Ea]; [cbn; auto|]. destruct (Hin b) as [Kb Eb]; [cbn; auto|]. destruct (Hin c) as [Kc Ec]; [cbn; auto|].
  apply (HT a b c); auto; try congruence; try (apply Ha; cbn; auto); apply Hb; cbn; auto.
Qed.
Lemma noTriples_noClash : noTriples KX kok -> ~ Clashes kok.
Proof.
  intros HT (l1 & l2 & H1 & H2 & U1 & U2 & (a & b & _ & _ & _ & _ & _ & [Hn|Hn])).
  - apply (triple l1 _ H1 U1 Hn HT).
  - apply (triple l2 _ H2 U2 Hn HT).
Qed.
Lemma c67_returns {A} (c : client X V A) : clientOk kok c -> noTriples KX kok ->
  exists a, runClient c ([], []) = Ok a /\ means kok c ([], []) a.
Proof. intros Hc HT. destruct (c67_refines c Hc) as [[_ Hb]|H]; auto. exfalso. apply (noTriples_noClash HT Hb). Qed.

(** ** A plain program has one meaning *)
Definition sameP (P Q : list (X -> Prop)) : Prop := Forall2 (fun p q => forall w, kok w -> p w <-> q w) P Q.
Definition sameF (F G : list (X -> option V)) : Prop := Forall2 (fun f g => forall k, kok k -> f k = g k) F G.
Lemma sameP_nth P Q i : sameP P Q -> forall w, kok w -> nth i P (fun _ => False) w <-> nth i Q (fun _ => False) w.
Proof. intros H. revert i. induction H; intros [|i] w Hw; cbn [nth]; auto; tauto. Qed.
Lemma sameF_nth F G i : sameF F G -> forall w, kok w -> nth i F (fun _ => None) w = nth i G (fun _ => None) w.
Proof. intros H. revert i. induction H; intros [|i] w Hw; cbn [nth]; auto. Qed.
Lemma setCmd_same c P F Q G R1 R2 : sameP P Q -> sameF F G -> setCmdMeans kok c (P, F) R1 -> setCmdMeans kok c (Q, G) R2 -> forall w, kok w -> R1 w <-> R2 w.
Proof.
  intros HP HF H1 H2 w Hw. rewrite (H1 w Hw), (H2 w Hw). pose proof (fun i => sameP_nth P Q i HP w Hw) as Hp. pose proof (fun i => sameF_nth F G i HF w Hw) as Hf.
  destruct c as [vs|cap ops|i v|i v|i j|i j|i j|i j|i p|i f|i]; unfold theP, theF; cbn [fst snd]; rewrite ?Hp, ?Hf; try reflexivity.
  split; intros (e & He & Hx & Hq); exists e; (split; [auto|]); (split; [|auto]); apply (sameP_nth P Q i HP e He); auto.
Qed.
Lemma mapCmd_same c P F Q G R1 R2 : sameP P Q -> sameF F G -> mapCmdMeans kok c (P, F) R1 -> mapCmdMeans kok c (Q, G) R2 -> forall w, kok w -> R1 w = R2 w.
Proof.
  intros HP HF H1 H2 w Hw. specialize (H1 w Hw). specialize (H2 w Hw). pose proof (fun i => sameP_nth P Q i HP w Hw) as Hp. pose proof (fun i => sameF_nth F G i HF w Hw) as Hf.
  destruct c as [kvs|cap ops|i k v|i k|i j|i j f|i ks|i p|i f|i f]; unfold theP, theF in *; cbn [fst snd] in *; try (rewrite H1, H2, ?Hf; reflexivity).
  destruct (R1 w) as [x|] eqn:Ex.
  - symmetry. apply H2. rewrite <- Hp. apply H1. auto.
  - destruct (R2 w) as [y|]; auto. exfalso. destruct (proj1 (H2 y) eq_refl) as [H3 H4]. apply Hp in H3. destruct (H1 y) as [_ H5]. discriminate H5. auto.
Qed.
Lemma lists_length l l' P Q : (forall w, kok w -> P w <-> Q w) -> Lists kok l P -> Lists kok l' Q -> length l = length l'.
Proof.
  intros HP (H1 & H2 & H3) (H4 & H5 & H6). apply (distinct_length_eq (vok := kok)); auto using unequal_distinct.
  intros w Hw. assert (HX : forall m, lookup m w = None <-> ~ exists e, In e m /\ veq e w = true).
  { intros m. rewrite <- lookup_not_None. destruct (lookup m w); split; auto; try congruence. intros H. exfalso. apply H. congruence. }
  rewrite !HX, <- H3, <- H6 by auto. rewrite HP by auto. reflexivity.
Qed.
Lemma listsMap_length (l l' : list (X * V)) F G : (forall k, kok k -> F k = G k) -> ListsMap kok l F -> ListsMap kok l' G -> length l = length l'.
Proof.
  intros HF (H1 & H2 & H3) (H4 & H5 & H6). rewrite <- (map_length fst l), <- (map_length fst l').
  assert (HX : forall (m : list (X * V)) J, (forall kv, In kv m -> kok (fst kv)) -> UnequalKeys m -> (forall k v, kok k -> J k = Some v <-> exists k', In (k', v) m /\ veq k' k = true) ->
    Lists kok (map fst m) (fun k => exists v, J k = Some v)).
  { intros m J G1 G2 G3. split; [|split; auto].
    - intros e He. apply in_map_iff in He as (kv & <- & He). auto.
    - intros v Hv. split.
      + intros (x & Hx). apply G3 in Hx as (k' & Hk & Hq); auto. exists k'. split; auto. apply in_map_iff. exists (k', x). auto.
      + intros (e & He & Hq). apply in_map_iff in He as ([k' x] & <- & He). exists x. apply G3; auto. exists k'. auto. }
  apply (lists_length _ _ (fun k => exists v, F k = Some v) (fun k => exists v, G k = Some v)).
  - intros w Hw. rewrite HF by auto. reflexivity.
  - apply HX; auto.
  - apply HX; auto.
Qed.
Lemma query_same {B} (q : query X V B) P F Q G (b b' : B) : plainQuery q -> queryOk kok q -> sameP P Q -> sameF F G ->
  queryMeans kok q (P, F) b -> queryMeans kok q (Q, G) b' -> b = b'.
Proof.
  intros Hq Ho HP HF H1 H2.
  assert (Hbool : forall (x y : bool) (p q : Prop), (x = true <-> p) -> (y = true <-> q) -> (p <-> q) -> x = y).
  { intros x y p0 q0 Hx Hy Hpq. rewrite <- Hx, <- Hy in Hpq. destruct x, y; auto; destruct Hpq as [U1 U2]; [symmetry; auto|auto]. }
  destruct q as [i v|i|i|i j|i j|i|i k|i k|i|i|i j|i]; cbn [queryMeans queryOk plainQuery] in *; unfold theP, theF in *; cbn [fst snd] in *; try contradiction;
    try (pose proof (sameP_nth P Q i HP) as Hi); try (pose proof (sameP_nth P Q j HP) as Hj);
    try (pose proof (sameF_nth F G i HF) as Fi); try (pose proof (sameF_nth F G j HF) as Fj).
  - eapply Hbool; [exact H1|exact H2|]. auto.
  - destruct H1 as (l & Hl & ->). destruct H2 as (l' & Hl' & ->). f_equal. eapply lists_length; eauto.
  - eapply Hbool; [exact H1|exact H2|]. split; intros H w Hw; specialize (H w Hw); rewrite Hi in * by auto; auto.
  - eapply Hbool; [exact H1|exact H2|]. split; intros H w Hw; specialize (H w Hw); rewrite Hi, Hj in * by auto; auto.
  - eapply Hbool; [exact H1|exact H2|]. split; intros H w Hw; specialize (H w Hw); rewrite Hi, Hj in * by auto; auto.
  - rewrite H1, H2. auto.
  - eapply Hbool; [exact H1|exact H2|]. rewrite Fi by auto. reflexivity.
  - destruct H1 as (l & Hl & ->). destruct H2 as (l' & Hl' & ->). f_equal. eapply listsMap_length; eauto.
  - eapply Hbool; [exact H1|exact H2|]. split; intros H w Hw; specialize (H w Hw); rewrite Fi in * by auto; auto.
  - eapply Hbool; [exact H1|exact H2|]. split; intros H w Hw; specialize (H w Hw); rewrite Fi, Fj in * by auto; auto.
Qed.
Lemma answerOk_plain {B} (q : query X V B) b : plainQuery q -> answerOk kok q b.
Proof. destruct q; cbn; auto; contradiction. Qed.
Lemma means_same {A} (c : client X V A) : forall P F Q G a b, plain c -> clientOk kok c -> sameP P Q -> sameF F G ->
  means kok c (P, F) a -> means kok c (Q, G) b -> a = b.
Proof.
  induction c as [x|c k IH|c k IH|B q k IH]; intros P F Q G a b Hp Hc HP HF H1 H2; cbn [plain clientOk means] in *.
  - congruence.
  - destruct H1 as (R1 & M1 & H1), H2 as (R2 & M2 & H2). cbn [fst snd] in *. apply (IH (P ++ [R1]) F (Q ++ [R2]) G a b); auto; [apply Hc|].
    apply Forall2_app; auto. constructor; auto. apply (setCmd_same c P F Q G); auto.
  - destruct H1 as (R1 & M1 & H1), H2 as (R2 & M2 & H2). cbn [fst snd] in *. apply (IH P (F ++ [R1]) Q (G ++ [R2]) a b); auto; [apply Hc|].
    apply Forall2_app; auto. constructor; auto. apply (mapCmd_same c P F Q G); auto.
  - destruct H1 as (x & M1 & H1), H2 as (y & M2 & H2). destruct Hp as [Hq Hk]. destruct Hc as [Ho Hc].
    assert (x = y) as -> by (apply (query_same q P F Q G); auto). apply (IH y P F Q G); auto. apply Hc. apply answerOk_plain; auto.
Qed.
Lemma c67_determined {A} (c : client X V A) a b : plain c -> clientOk kok c -> means kok c ([], []) a -> means kok c ([], []) b -> a = b.
Proof. intros Hp Hc H1 H2. apply (means_same c [] [] [] [] a b); auto; constructor. Qed.
End Refine.

(** The answers of a plain program depend neither on the build and the schedule of the goroutines nor on the hash function. *)
Lemma c67_environments (E1 E2 : Env) (HE1 : EnvOk E1) (HE2 : EnvOk E2) (X V A : Type) (eqX : X -> X -> bool) (h1 h2 : X -> N -> N) (kok : X -> Prop)
  (KO1 : KeyOk {| veq := eqX; vhash := h1 |} kok) (KO2 : KeyOk {| veq := eqX; vhash := h2 |} kok) (KV : Key V) (ZV : Zero V) (c : client X V A) a b :
  plain c -> clientOk (KX := {| veq := eqX; vhash := h1 |}) kok c ->
  runClient (E := E1) (KX := {| veq := eqX; vhash := h1 |}) c ([], []) = Ok a ->
  runClient (E := E2) (KX := {| veq := eqX; vhash := h2 |}) c ([], []) = Ok b ->
  a = b.
Proof.
  intros Hp Hc H1 H2.
  destruct (c67_refines (E := E1) (HE := HE1) (KO := KO1) c Hc) as [[Hx _]|(a' & Ha & Ma)]; [congruence|]. assert (a' = a) as -> by congruence.
  assert (Hc2 : clientOk (KX := {| veq := eqX; vhash := h2 |}) kok c) by exact Hc.
  destruct (c67_refines (E := E2) (HE := HE2) (KO := KO2) c Hc2) as [[Hx _]|(b' & Hb & Mb)]; [congruence|]. assert (b' = b) as -> by congruence.
  apply (c67_determined (KO := KO1) c a b Hp Hc Ma). exact Mb.
Qed.
