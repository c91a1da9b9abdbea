(** * HeapProg: programs over any number of sets and builders on one heap.

    The heap holds the nodes of all sets and all builders of one element type; maps are sets of entries
    (map.go:15-17), so the element type may also be a type of map entries. A program is a list of commands; each
    command either works on a builder or makes a new set from existing ones. *)
From Verif Require Import Base Bits Env EnvFacts Node Tree HeapModel HeapFrame.
Local Open Scope nat_scope.

Section Prog.
Context {E : Env} {T : Type} {K : Key T} (grow : nat -> nat -> nat).
Notation obj := (obj (T := T)).
Notation heap := (heap (T := T)).
Notation M := (M (T := T)).

(** ** Trees and builders on the heap *)

(** tree.go:17-20 [Tree] and builder.go:22-25 [Builder]: a pointer to the root and the count. *)
Record ptree := mkPT { pt_root : option nat; pt_count : Z }.
Definition emptyPT : ptree := mkPT None 0.

(** tree.go:187-197 [With]. *)
Definition tH_with (t : ptree) (v : T) : M ptree :=
  match pt_root t with
  | None => p <~ alloc (OLeaf1 v) ;; ret (mkPT (Some p) 1)
  | Some p =>
      '(r, m) <~ withH grow treeFuel veq (fun _ b => b) p v 0 (newHasher v 0) ;;
      ret (mkPT (Some r) (pt_count t + 1 - m))
  end.

(** tree.go:199-209 [Without]. *)
Definition tH_without (t : ptree) (v : T) : M ptree :=
  match pt_root t with
  | None => ret t
  | Some p =>
      '(o, m) <~ withoutH grow treeFuel p v 0 (newHasher v 0) ;;
      ret (mkPT o (pt_count t - m))
  end.

(** tree.go:48-60 [Combine]. *)
Definition tH_combine (args : CombineArgs T) (t u : ptree) : M ptree :=
  match pt_root t, pt_root u with
  | None, _ => ret u
  | _, None => ret t
  | Some p, Some p2 =>
      '(r, m) <~ combineH grow treeFuel args p p2 0 ;;
      ret (mkPT (Some r) (pt_count t + pt_count u - m))
  end.

(** tree.go:62-71 [Difference]. *)
Definition tH_difference (g : gauge) (t u : ptree) : M ptree :=
  match pt_root t, pt_root u with
  | Some p, Some p2 =>
      '(o, m) <~ differenceH grow treeFuel g p p2 0 ;;
      ret (mkPT o (pt_count t - m))
  | _, _ => ret t
  end.

(** tree.go:92-104 [Intersection]. *)
Definition tH_intersection (g : gauge) (t u : ptree) : M ptree :=
  match pt_root t, pt_root u with
  | Some p, Some p2 =>
      let '(p, p2) := if (pt_count u <? pt_count t)%Z then (p2, p) else (p, p2) in
      '(o, m) <~ intersectionH grow treeFuel g p p2 0 ;;
      ret (mkPT o m)
  | _, _ => ret emptyPT
  end.

(** tree.go:177-185 [Where]. *)
Definition tH_where (g : gauge) (pred : T -> bool) (t : ptree) : M ptree :=
  match pt_root t with
  | None => ret t
  | Some p => '(o, m) <~ whereH grow treeFuel g pred p 0 ;; ret (mkPT o m)
  end.

(** builder.go:50-64 [Add]. *)
Definition bH_add (b : ptree) (v : T) : M ptree :=
  match pt_root b with
  | None => p <~ alloc (OLeaf1 v) ;; ret (mkPT (Some p) 1)
  | Some p =>
      '(r, m) <~ addFastH grow treeFuel p v 0 (newHasher v 0) ;;
      ret (mkPT (Some r) (pt_count b + (1 - m)))
  end.

(** builder.go:66-77 [Remove]. *)
Definition bH_remove (b : ptree) (v : T) : M ptree :=
  match pt_root b with
  | None => ret b
  | Some p =>
      '(o, m) <~ removeH grow treeFuel p v 0 (newHasher v 0) ;;
      ret (mkPT o (pt_count b - m))
  end.

(** tree.go:84-90 [Get]. *)
Definition tH_get (t : ptree) (v : T) : M (option T) :=
  match pt_root t with
  | None => ret None
  | Some p => getH treeFuel p v (newHasher v 0)
  end.

(** ** Programs *)

(** What a program can do with builders and sets (maps), by index: set_builder.go:14-41, map_builder.go:12-50,
    set.go:195-204 (With, Without), set.go:207-214 (Where), set.go:251-264 (Intersection, Union, Difference),
    map.go:71-81 (With, Without), map.go:194-212 (Merge and Update, [f] chooses the entry for a common key).
    All other ways to obtain a set (NewSet, Map, GroupBy, Powerset, ...) read elements and add them to a builder or
    combine the operations above. *)
Inductive cmd : Type :=
| CNew                                     (* a new builder *)
| CAdd (b : nat) (v : T)
| CRemove (b : nat) (v : T)
| CFinish (b : nat)                        (* a new set *)
| CWith (s : nat) (v : T)                  (* these make a new set from existing ones *)
| CWithout (s : nat) (v : T)
| CCombine (f : T -> T -> T) (s t : nat)
| CDifference (s t : nat)
| CIntersection (s t : nat)
| CWhere (pred : T -> bool) (s : nat).

(** The heap, the sets obtained so far, the builders. *)
Record state := mkState { st_heap : heap; st_sets : list ptree; st_builders : list ptree }.
Definition initial : state := mkState emptyHeap [] [].

(** A command that makes a set; if it panics, no set is obtained but the changes to the heap remain. *)
Definition makeSet (st : state) (m : M ptree) : state :=
  match m (st_heap st) with
  | (Ok t, h) => mkState h (st_sets st ++ [t]) (st_builders st)
  | (_, h) => mkState h (st_sets st) (st_builders st)
  end.
(** A command that changes builder [b]. *)
Definition changeBuilder (st : state) (b : nat) (m : M ptree) : state :=
  match m (st_heap st) with
  | (Ok t, h) => mkState h (st_sets st) (set_nth (st_builders st) b t)
  | (_, h) => mkState h (st_sets st) (st_builders st)
  end.

(** One command; an index out of range is ignored. Gauges as in set.go:207-264 and map.go:183-212. *)
Definition step (st : state) (c : cmd) : state :=
  let set1 s k := match nth_error (st_sets st) s with Some t => makeSet st (k t) | None => st end in
  let set2 s u k := match nth_error (st_sets st) s, nth_error (st_sets st) u with
                    | Some t, Some t' => makeSet st (k t t') | _, _ => st end in
  let bld b k := match nth_error (st_builders st) b with Some t => changeBuilder st b (k t) | None => st end in
  match c with
  | CNew => mkState (st_heap st) (st_sets st) (st_builders st ++ [emptyPT])
  | CAdd b v => bld b (fun t => bH_add t v)
  | CRemove b v => bld b (fun t => bH_remove t v)
  | CFinish b =>
      match nth_error (st_builders st) b with
      | Some t => mkState (st_heap st) (st_sets st ++ [t]) (set_nth (st_builders st) b emptyPT)
      | None => st
      end
  | CWith s v => set1 s (fun t => tH_with t v)
  | CWithout s v => set1 s (fun t => tH_without t v)
  | CCombine f s u => set2 s u (fun t t' => tH_combine (combineArgs (newGauge (pt_count t)) f) t t')
  | CDifference s u => set2 s u (fun t t' => tH_difference NonParallel t t')
  | CIntersection s u => set2 s u (fun t t' => tH_intersection (newGauge (pt_count t)) t t')
  | CWhere pred s => set1 s (fun t => tH_where (newGauge (pt_count t)) pred t)
  end.
Definition run (cs : list cmd) (st : state) : state := fold_left step cs st.

Definition builderCmd (c : cmd) : bool :=
  match c with CNew | CAdd _ _ | CRemove _ _ | CFinish _ => true | _ => false end.

(** ** What the heap holds *)

Fixpoint readAll (f : nat -> option (node T)) (d : list (option nat)) : option (list (option (node T))) :=
  match d with
  | [] => Some []
  | None :: d' => option_map (cons None) (readAll f d')
  | Some c :: d' =>
      match f c, readAll f d' with
      | Some n, Some l => Some (Some n :: l)
      | _, _ => None
      end
  end.
(** The node at an address, up to some depth. *)
Fixpoint readN (fuel : nat) (h : heap) (p : nat) : option (node T) :=
  match fuel with
  | O => None
  | S k =>
      match nth_error (h_objs h) p with
      | Some (OLeaf1 a) => Some (Leaf1 a)
      | Some (OLeaf2 a b) => Some (Leaf2 a b)
      | Some (OTwig r len) => option_map (fun a => Twig (firstn len (a_slots a))) (nth_error (h_arrs h) r)
      | Some (OBranch m d) => option_map (Branch m) (readAll (readN k h) d)
      | None => None
      end
  end.
(** The tree (the set, the map) at a root. *)
Definition readT (fuel : nat) (h : heap) (t : ptree) : option (tree T) :=
  match pt_root t with
  | None => Some (mkTree None (pt_count t))
  | Some p => option_map (fun n => mkTree (Some n) (pt_count t)) (readN fuel h p)
  end.

(** ** Ownership by tags *)

(** Every object belongs to the sets (tag 0) or to one builder (tag [S i]), and points to objects and arrays with
    the same tag. *)
Definition tagged (ob oa : nat -> nat) (h : heap) : Prop :=
  forall p o, nth_error (h_objs h) p = Some o ->
    points (fun q => q < length (h_objs h) /\ ob q = ob p) (fun r => r < length (h_arrs h) /\ oa r = ob p) o.
Definition rootIn (ob : nat -> nat) (k : nat) (h : heap) (t : ptree) : Prop :=
  forall p, pt_root t = Some p -> p < length (h_objs h) /\ ob p = k.

Lemma lt_nth {A} (l : list A) p x : nth_error l p = Some x -> p < length l.
Proof. intros H. apply nth_error_Some. congruence. Qed.

Lemma points_imp (P Q P' Q' : nat -> Prop) (o : obj) : points P Q o -> (forall p, P p -> P' p) -> (forall r, Q r -> Q' r) ->
  points P' Q' o.
Proof. destruct o; cbn; auto. Qed.

Definition ext (f : nat -> nat) (n k : nat) (p : nat) : nat := if p <? n then f p else k.
Lemma ext_old f n k p : p < n -> ext f n k p = f p.
Proof. intros H. unfold ext. rewrite (proj2 (Nat.ltb_lt _ _) H). auto. Qed.
Lemma ext_new f n k p : n <= p -> ext f n k p = k.
Proof. intros H. unfold ext. rewrite (proj2 (Nat.ltb_ge _ _) H). auto. Qed.

(** An operation that starts with the objects of tag [k] changes these only, and the new objects get tag [k]. *)
Lemma tag_run {A} (m : M A) (post : (nat -> Prop) -> A -> Prop) (k : nat) ob oa h : grows m ->
  tagged ob oa h ->
  (forall P Q : nat -> Prop, (forall p, p < length (h_objs h) -> ob p = k -> P p) -> safe P Q m (post P)) ->
  let h' := snd (m h) in
  let ob' := ext ob (length (h_objs h)) k in
  let oa' := ext oa (length (h_arrs h)) k in
  tagged ob' oa' h' /\
  (forall p, p < length (h_objs h) -> ob p <> k -> nth_error (h_objs h') p = nth_error (h_objs h) p) /\
  (forall r, r < length (h_arrs h) -> oa r <> k -> nth_error (h_arrs h') r = nth_error (h_arrs h) r) /\
  (forall a, fst (m h) = Ok a -> post (fun p => p < length (h_objs h') /\ ob' p = k) a) /\
  (exists l, h_log h' = h_log h ++ l /\
    Forall (locIn (fun p => p < length (h_objs h) -> ob p = k) (fun r => r < length (h_arrs h) -> oa r = k)) l).
Proof.
  intros Hg Ht Hs h' ob' oa'. destruct (Hg h) as [G1 G2]. fold h' in G1, G2.
  set (P := fun p => p < length (h_objs h') /\ ob' p = k). set (Q := fun r => r < length (h_arrs h') /\ oa' r = k).
  assert (Ho : forall p, p < length (h_objs h) -> ob' p = ob p) by (intros; apply ext_old; auto).
  assert (Ha : forall p, p < length (h_arrs h) -> oa' p = oa p) by (intros; apply ext_old; auto).
  destruct (Hs P Q) with (h := h) as (Hc & (_ & _ & W1 & W2 & _ & l & W3 & W4) & Hp).
  - intros p Hp Ek. split; [lia|]. rewrite Ho; auto.
  - intros p o [Hp Ek] Hn. specialize (Ht p o Hn). apply lt_nth in Hn. rewrite Ho in Ek by auto.
    eapply points_imp; [exact Ht| |]; cbv beta; intros x [Hx Ex]; (split; [lia|]); [rewrite Ho by auto|rewrite Ha by auto]; congruence.
  - fold h'. intros p Hp. split; [lia|]. apply ext_new. lia.
  - fold h'. intros r Hr. split; [lia|]. apply ext_new. lia.
  - fold h' in Hc, W1, W2, W3. split; [|split; [|split; [|split; [exact Hp|]]]].
    + intros p o Hn. assert (Hl := lt_nth _ _ _ Hn). destruct (Nat.eq_dec (ob' p) k) as [Ek|Ek].
      * rewrite Ek. apply (Hc p o); auto. split; auto.
      * assert (p < length (h_objs h)).
        { destruct (Nat.lt_ge_cases p (length (h_objs h))) as [|Hge]; auto. contradiction Ek. apply ext_new; auto. }
        rewrite W1 in Hn by (intros [_ E1]; auto). specialize (Ht p o Hn). rewrite (Ho p) by auto.
        eapply points_imp; [exact Ht| |]; cbv beta; intros x [Hx Ex]; (split; [lia|]); [rewrite Ho by auto|rewrite Ha by auto]; auto.
    + intros p Hl Hk. apply W1. intros [_ E1]. rewrite Ho in E1; auto.
    + intros r Hl Hk. apply W2. intros [_ E1]. rewrite Ha in E1; auto.
    + exists l. split; [exact W3|]. eapply Forall_impl; [|exact W4].
      intros [p|r i|r]; cbn; intros [_ E1] Hl; [rewrite <- Ho|rewrite <- Ha|rewrite <- Ha]; auto.
Qed.

(** The tree at [t] lies in a region on which [h'] agrees with [h], and which has not been written to. *)
Definition stable (h h' : heap) (t : ptree) : Prop := exists P Q : nat -> Prop,
  optP P (pt_root t) /\ closed P Q h /\
  (forall p, P p -> nth_error (h_objs h') p = nth_error (h_objs h) p) /\
  (forall r, Q r -> nth_error (h_arrs h') r = nth_error (h_arrs h) r) /\
  (exists l, h_log h' = h_log h ++ l /\ Forall (fun w => ~ locIn P Q w) l).

Lemma stable_refl h t : stable h h t.
Proof.
  exists (fun _ => True), (fun _ => True). split; [intros p _; exact Logic.I|]. split; [intros p [] _ _; cbn; auto|].
  split; [auto|]. split; [auto|]. exists []. rewrite app_nil_r. auto.
Qed.

Lemma stable_tag ob oa h h' k t : tagged ob oa h -> rootIn ob k h t ->
  (forall p, p < length (h_objs h) -> ob p = k -> nth_error (h_objs h') p = nth_error (h_objs h) p) ->
  (forall r, r < length (h_arrs h) -> oa r = k -> nth_error (h_arrs h') r = nth_error (h_arrs h) r) ->
  (exists j l, j <> k /\ h_log h' = h_log h ++ l /\
    Forall (locIn (fun p => p < length (h_objs h) -> ob p = j) (fun r => r < length (h_arrs h) -> oa r = j)) l) ->
  stable h h' t.
Proof.
  intros Ht Hr H1 H2 (j & l & Hj & H3 & H4). exists (fun p => p < length (h_objs h) /\ ob p = k), (fun r => r < length (h_arrs h) /\ oa r = k).
  split; [exact Hr|]. split; [|split; [intros p []; auto|split; [intros r []; auto|exists l; split; [exact H3|]]]].
  2:{ eapply Forall_impl; [|exact H4]. intros [p|r i|r]; cbn; intros A1 [A2 A3]; specialize (A1 A2); congruence. }
  intros p o [Hp Hk] Hn. eapply points_imp; [exact (Ht p o Hn)| |]; cbv beta; intros x [Hx Ex]; split; congruence.
Qed.

(** Reading a tree depends on its region only. *)
Lemma readN_region (P Q : nat -> Prop) h h' : closed P Q h ->
  (forall p, P p -> nth_error (h_objs h') p = nth_error (h_objs h) p) ->
  (forall r, Q r -> nth_error (h_arrs h') r = nth_error (h_arrs h) r) ->
  forall fuel p, P p -> readN fuel h' p = readN fuel h p.
Proof.
  intros Hc H1 H2. induction fuel as [|f IH]; intros p Hp; cbn [readN]; auto. rewrite H1 by auto.
  destruct (nth_error (h_objs h) p) as [[a|a b|r len|m d]|] eqn:Ep; auto.
  - specialize (Hc p _ Hp Ep). cbn in Hc. rewrite H2; auto.
  - specialize (Hc p _ Hp Ep). cbn in Hc. f_equal. clear Ep.
    induction d as [|[c|] d IHd]; cbn [readAll]; auto.
    + rewrite (IH c), IHd; auto; [intros c' Hc'; apply Hc; cbn; auto|apply Hc; cbn; auto].
    + rewrite IHd; auto. intros c' Hc'. apply Hc. cbn; auto.
Qed.

(** The tree at [t] reads the same in both heaps. *)
Definition unchanged (h h' : heap) (t : ptree) : Prop := forall fuel, readT fuel h' t = readT fuel h t.

Lemma unchanged_refl h t : unchanged h h t.
Proof. intros fuel. auto. Qed.
Lemma unchanged_trans h1 h2 h3 t : unchanged h1 h2 t -> unchanged h2 h3 t -> unchanged h1 h3 t.
Proof. intros H1 H2 fuel. rewrite H2. auto. Qed.

Lemma stable_unchanged h h' t : stable h h' t -> unchanged h h' t.
Proof.
  intros (P & Q & Hr & Hc & H1 & H2 & _) fuel. unfold readT. destruct (pt_root t) as [p|] eqn:Ep; auto.
  erewrite readN_region; eauto.
Qed.

(** [get] on the heap is [get] on the tree read from the heap. *)
Lemma readAll_child f d l i : readAll f d = Some l ->
  match childP d i with Some c => exists n, f c = Some n /\ child l i = Some n | None => child l i = None end.
Proof.
  revert l i; induction d as [|[c|] d IH]; cbn [readAll]; intros l i Hl.
  - injection Hl as <-. unfold childP, child. destruct i; reflexivity.
  - destruct (f c) as [n|] eqn:Ec; [|discriminate]. destruct (readAll f d) as [l'|] eqn:El; [|discriminate]. injection Hl as <-.
    destruct i as [|i]; [cbn; exists n; auto|]. apply (IH l' i eq_refl).
  - destruct (readAll f d) as [l'|] eqn:El; [|discriminate]. injection Hl as <-.
    destruct i as [|i]; [cbn; auto|]. apply (IH l' i eq_refl).
Qed.

Lemma getH_read fuel : forall fuel' h p n v hs, readN fuel' h p = Some n -> getH fuel p v hs h = (get fuel n v hs, h).
Proof.
  induction fuel as [|k IH]; intros fuel' h p n v hs Hr; [reflexivity|]. destruct fuel' as [|k']; [discriminate|].
  cbn [readN] in Hr. cbn [getH get]. unfold bindM, load.
  destruct (nth_error (h_objs h) p) as [[a|a b|r len|m d]|] eqn:Ep; try discriminate.
  - injection Hr as <-. reflexivity.
  - injection Hr as <-. reflexivity.
  - unfold elemsOf, bindM, loadArr. cbn [fst snd]. destruct (nth_error (h_arrs h) r) as [a|]; [|discriminate]. injection Hr as <-. reflexivity.
  - destruct (readAll (readN k' h) d) as [l|] eqn:El; [|discriminate]. injection Hr as <-.
    assert (Hc := readAll_child _ _ _ (h_hash hs) El). destruct (childP d (h_hash hs)) as [c|].
    + destruct Hc as (n & H1 & H2). rewrite H2. eauto.
    + rewrite Hc. reflexivity.
Qed.

Lemma tH_get_read fuel h t u v : readT fuel h t = Some u -> tH_get t v h = (t_get u v, h).
Proof.
  unfold readT, tH_get, t_get. destruct (pt_root t) as [p|].
  - destruct (readN fuel h p) as [n|] eqn:En; [|discriminate]. intros [= <-]. cbn [t_root]. eapply getH_read; eauto.
  - intros [= <-]. reflexivity.
Qed.

(** ** The invariant of programs *)

Definition tagInv (st : state) : Prop := exists ob oa,
  tagged ob oa (st_heap st) /\
  (forall t, In t (st_sets st) -> rootIn ob 0 (st_heap st) t) /\
  (forall i t, nth_error (st_builders st) i = Some t -> rootIn ob (S i) (st_heap st) t).

Lemma tagInv_initial : tagInv initial.
Proof.
  exists (fun _ => 0), (fun _ => 0). split; [|split].
  - intros p o Hp. destruct p; discriminate.
  - intros t [].
  - intros i t Hi. destruct i; discriminate.
Qed.

Definition okPT (P : nat -> Prop) (t : ptree) : Prop := optP P (pt_root t).

Lemma rootIn_okPT ob k h t (P : nat -> Prop) : rootIn ob k h t -> (forall p, p < length (h_objs h) -> ob p = k -> P p) -> okPT P t.
Proof. intros H1 H2 p Hp. destruct (H1 p Hp). auto. Qed.

Lemma rootIn_ext ob n k j h h' t : rootIn ob j h t -> n = length (h_objs h) -> length (h_objs h) <= length (h_objs h') ->
  rootIn (ext ob n k) j h' t.
Proof. intros H -> Hl p Hp. destruct (H p Hp). split; [lia|]. rewrite ext_old; auto. Qed.

(** A command of the sets. *)
Lemma makeSet_tag st m : tagInv st -> grows m ->
  (forall P Q : nat -> Prop, (forall t, In t (st_sets st) -> okPT P t) -> safe P Q m (okPT P)) ->
  tagInv (makeSet st m) /\
  (forall i t, nth_error (st_builders st) i = Some t -> stable (st_heap st) (st_heap (makeSet st m)) t).
Proof.
  intros (ob & oa & Ht & Hs & Hb) Hg Hm.
  destruct (tag_run m okPT 0 ob oa (st_heap st) Hg Ht) as (T1 & T2 & T3 & T4 & l & T5 & T6).
  { intros P Q HP. apply Hm. intros t Hin. eapply rootIn_okPT; eauto. }
  destruct (Hg (st_heap st)) as [G1 G2].
  assert (Hh : st_heap (makeSet st m) = snd (m (st_heap st))).
  { unfold makeSet. destruct (m (st_heap st)) as [[t| |] h']; reflexivity. }
  assert (HB : st_builders (makeSet st m) = st_builders st).
  { unfold makeSet. destruct (m (st_heap st)) as [[t| |] h']; reflexivity. }
  split.
  - eexists _, _. rewrite Hh, HB. split; [exact T1|]. split.
    + assert (Hold : forall t, In t (st_sets st) -> rootIn (ext ob (length (h_objs (st_heap st))) 0) 0 (snd (m (st_heap st))) t).
      { intros t Hin. eapply rootIn_ext; eauto. }
      unfold makeSet. destruct (m (st_heap st)) as [[t| |] h'] eqn:Em; cbn [st_sets fst snd] in *; auto.
      intros t' Hin. apply in_app_or in Hin as [Hin|[<-|[]]]; auto.
      intros p Hp. exact (T4 t eq_refl p Hp).
    + intros i t Hi. eapply rootIn_ext; eauto.
  - intros i t Hi. rewrite Hh. eapply stable_tag; eauto.
    + intros p Hp Hk. apply T2; auto. rewrite Hk. discriminate.
    + intros p Hp Hk. apply T3; auto. rewrite Hk. discriminate.
Qed.

(** A command of builder [b]. *)
Lemma changeBuilder_tag st b t0 m : tagInv st -> nth_error (st_builders st) b = Some t0 -> grows m ->
  (forall P Q : nat -> Prop, okPT P t0 -> safe P Q m (okPT P)) ->
  tagInv (changeBuilder st b m) /\
  (forall t, In t (st_sets st) -> stable (st_heap st) (st_heap (changeBuilder st b m)) t) /\
  (forall i t, i <> b -> nth_error (st_builders st) i = Some t -> stable (st_heap st) (st_heap (changeBuilder st b m)) t).
Proof.
  intros (ob & oa & Ht & Hs & Hb) Hb0 Hg Hm.
  destruct (tag_run m okPT (S b) ob oa (st_heap st) Hg Ht) as (T1 & T2 & T3 & T4 & l & T5 & T6).
  { intros P Q HP. apply Hm. eapply rootIn_okPT; eauto. }
  destruct (Hg (st_heap st)) as [G1 G2].
  assert (Hh : st_heap (changeBuilder st b m) = snd (m (st_heap st))).
  { unfold changeBuilder. destruct (m (st_heap st)) as [[t| |] h']; reflexivity. }
  assert (HS : st_sets (changeBuilder st b m) = st_sets st).
  { unfold changeBuilder. destruct (m (st_heap st)) as [[t| |] h']; reflexivity. }
  split; [|split].
  - eexists _, _. rewrite Hh, HS. split; [exact T1|]. split.
    + intros t Hin. eapply rootIn_ext; eauto.
    + assert (Hold : forall i t, nth_error (st_builders st) i = Some t ->
        rootIn (ext ob (length (h_objs (st_heap st))) (S b)) (S i) (snd (m (st_heap st))) t).
      { intros i t Hi. eapply rootIn_ext; eauto. }
      unfold changeBuilder. destruct (m (st_heap st)) as [[t| |] h'] eqn:Em; cbn [st_builders fst snd] in *; auto.
      intros i t' Hi. destruct (Nat.eq_dec b i) as [<-|Hn].
      * rewrite nth_error_set_nth_eq in Hi by (eapply lt_nth; eauto). injection Hi as <-.
        intros p Hp. exact (T4 t eq_refl p Hp).
      * rewrite nth_error_set_nth_ne in Hi by auto. auto.
  - intros t Hin. rewrite Hh. eapply stable_tag; eauto.
    + intros p Hp Hk. apply T2; auto. rewrite Hk. discriminate.
    + intros p Hp Hk. apply T3; auto. rewrite Hk. discriminate.
    + exists (S b), l. auto.
  - intros i t Hn Hi. rewrite Hh. eapply stable_tag; eauto.
    + intros p Hp Hk. apply T2; auto. rewrite Hk. congruence.
    + intros p Hp Hk. apply T3; auto. rewrite Hk. congruence.
    + exists (S b), l. split; [congruence|auto].
Qed.

(** [Finish] hands all objects of the builder to the sets. *)
Lemma finish_tag st b t0 : tagInv st -> nth_error (st_builders st) b = Some t0 ->
  tagInv (mkState (st_heap st) (st_sets st ++ [t0]) (set_nth (st_builders st) b emptyPT)).
Proof.
  intros (ob & oa & Ht & Hs & Hb) Hb0. set (re := fun k => if k =? S b then 0 else k).
  exists (fun p => re (ob p)), (fun r => re (oa r)). cbn [st_heap st_sets st_builders]. split; [|split].
  - intros p o Hp. eapply points_imp; [exact (Ht p o Hp)| |]; cbv beta; intros x [Hx Ex]; (split; [auto|congruence]).
  - intros t Hin p Hp. apply in_app_or in Hin as [Hin|[<-|[]]].
    + destruct (Hs t Hin p Hp) as [Hl Hk]. split; auto. rewrite Hk. reflexivity.
    + destruct (Hb b t0 Hb0 p Hp) as [Hl Hk]. split; auto. rewrite Hk. unfold re. rewrite Nat.eqb_refl. auto.
  - intros i t Hi. destruct (Nat.eq_dec b i) as [<-|Hn].
    + rewrite nth_error_set_nth_eq in Hi by (eapply lt_nth; eauto). injection Hi as <-. intros p Hp. discriminate.
    + rewrite nth_error_set_nth_ne in Hi by auto. intros p Hp. destruct (Hb i t Hi p Hp) as [Hl Hk]. split; auto.
      rewrite Hk. unfold re. destruct (Nat.eqb_spec (S i) (S b)); congruence.
Qed.

(** ** Frames of the operations on trees *)

Ltac grt := unfold tH_with, tH_without, tH_combine, tH_difference, tH_intersection, tH_where, bH_add, bH_remove, addFastH;
  repeat match goal with |- grows (match ?x with _ => _ end) => destruct x end;
  repeat first [ apply gr_ret | apply gr_alloc | apply gr_withH | apply gr_withoutH | apply gr_combineH | apply gr_differenceH
    | apply gr_intersectionH | apply gr_whereH | apply gr_addH | apply gr_removeH | apply gr_bind | intros [? ?] | intro ].

Lemma gr_tH_with t v : grows (tH_with t v). Proof. grt. Qed.
Lemma gr_tH_without t v : grows (tH_without t v). Proof. grt. Qed.
Lemma gr_tH_combine args t u : grows (tH_combine args t u). Proof. grt. Qed.
Lemma gr_tH_difference g t u : grows (tH_difference g t u). Proof. grt. Qed.
Lemma gr_tH_intersection g t u : grows (tH_intersection g t u). Proof. grt. Qed.
Lemma gr_tH_where g pred t : grows (tH_where g pred t). Proof. grt. Qed.
Lemma gr_bH_add b v : grows (bH_add b v). Proof. grt. Qed.
Lemma gr_bH_remove b v : grows (bH_remove b v). Proof. grt. Qed.

Section Safe.
Context (P Q : nat -> Prop).

Lemma okPT_Some p c : P p -> okPT P (mkPT (Some p) c).
Proof. intros H q [= <-]. auto. Qed.
Lemma okPT_opt o c : optP P o -> okPT P (mkPT o c).
Proof. auto. Qed.
Lemma okPT_root t p : okPT P t -> pt_root t = Some p -> P p.
Proof. intros H1 H2. apply H1. auto. Qed.
Local Hint Resolve okPT_Some okPT_opt okPT_root : core.

Local Ltac bd := eapply safe_bind; [repeat first [intros [? ?] | intro]; apply gr_ret| |].

Lemma safe_tH_with t v : okPT P t -> safe P Q (tH_with t v) (okPT P).
Proof.
  intros Ht. unfold tH_with. destruct (pt_root t) as [p|] eqn:Ep.
  - bd; [apply safe_withH; eauto|]. intros [r m] Hr. apply safe_ret; auto.
  - bd; [apply safe_alloc; cbn; auto|]. intros q Hq. apply safe_ret; auto.
Qed.
Lemma safe_tH_without t v : okPT P t -> safe P Q (tH_without t v) (okPT P).
Proof.
  intros Ht. unfold tH_without. destruct (pt_root t) as [p|] eqn:Ep; [|apply safe_ret; auto].
  bd; [apply safe_withoutH; eauto|]. intros [r m] Hr. apply safe_ret; auto.
Qed.
Lemma safe_tH_combine args t u : okPT P t -> okPT P u -> safe P Q (tH_combine args t u) (okPT P).
Proof.
  intros Ht Hu. unfold tH_combine. destruct (pt_root t) as [p|] eqn:Ep; [|apply safe_ret; auto].
  destruct (pt_root u) as [p2|] eqn:Ep2; [|apply safe_ret; auto].
  bd; [apply safe_combineH; eauto|]. intros [r m] Hr. apply safe_ret; auto.
Qed.
Lemma safe_tH_difference g t u : okPT P t -> okPT P u -> safe P Q (tH_difference g t u) (okPT P).
Proof.
  intros Ht Hu. unfold tH_difference. destruct (pt_root t) as [p|] eqn:Ep; [|apply safe_ret; auto].
  destruct (pt_root u) as [p2|] eqn:Ep2; [|apply safe_ret; auto].
  bd; [apply safe_differenceH; eauto|]. intros [r m] Hr. apply safe_ret; auto.
Qed.
Lemma safe_tH_intersection g t u : okPT P t -> okPT P u -> safe P Q (tH_intersection g t u) (okPT P).
Proof.
  intros Ht Hu. unfold tH_intersection. assert (okPT P emptyPT) by (intros q [=]).
  destruct (pt_root t) as [p|] eqn:Ep; [|apply safe_ret; auto].
  destruct (pt_root u) as [p2|] eqn:Ep2; [|apply safe_ret; auto].
  destruct (_ <? _)%Z; (bd; [apply safe_intersectionH; eauto|]; intros [r m] Hr; apply safe_ret; auto).
Qed.
Lemma safe_tH_where g pred t : okPT P t -> safe P Q (tH_where g pred t) (okPT P).
Proof.
  intros Ht. unfold tH_where. destruct (pt_root t) as [p|] eqn:Ep; [|apply safe_ret; auto].
  bd; [apply safe_whereH; eauto|]. intros [r m] Hr. apply safe_ret; auto.
Qed.
Lemma safe_bH_add t v : okPT P t -> safe P Q (bH_add t v) (okPT P).
Proof.
  intros Ht. unfold bH_add, addFastH. destruct (pt_root t) as [p|] eqn:Ep.
  - bd; [apply safe_addH; eauto|]. intros [r m] Hr. apply safe_ret; auto.
  - bd; [apply safe_alloc; cbn; auto|]. intros q Hq. apply safe_ret; auto.
Qed.
Lemma safe_bH_remove t v : okPT P t -> safe P Q (bH_remove t v) (okPT P).
Proof.
  intros Ht. unfold bH_remove. destruct (pt_root t) as [p|] eqn:Ep; [|apply safe_ret; auto].
  bd; [apply safe_removeH; eauto|]. intros [r m] Hr. apply safe_ret; auto.
Qed.
End Safe.

(** ** Isolation *)

(** One command. *)
Lemma step_tag st c : tagInv st -> tagInv (step st c) /\
  (builderCmd c = true -> forall t, In t (st_sets st) -> stable (st_heap st) (st_heap (step st c)) t) /\
  (forall i t, nth_error (st_builders st) i = Some t ->
     match c with CAdd b _ | CRemove b _ => i <> b | _ => True end ->
     stable (st_heap st) (st_heap (step st c)) t).
Proof.
  intros Hi.
  assert (Hset : forall m, grows m -> (forall P Q : nat -> Prop, (forall t, In t (st_sets st) -> okPT P t) -> safe P Q m (okPT P)) ->
    tagInv (makeSet st m) /\ (false = true -> forall t, In t (st_sets st) -> stable (st_heap st) (st_heap (makeSet st m)) t) /\
    (forall i t, nth_error (st_builders st) i = Some t -> True -> stable (st_heap st) (st_heap (makeSet st m)) t)).
  { intros m Hg Hm. destruct (makeSet_tag st m Hi Hg Hm) as [H1 H2]. split; auto. split; [discriminate|]. eauto. }
  assert (Hid : forall p (q : nat -> Prop), tagInv st /\ (p = true -> forall t, In t (st_sets st) -> stable (st_heap st) (st_heap st) t) /\
    (forall i t, nth_error (st_builders st) i = Some t -> q i -> stable (st_heap st) (st_heap st) t)).
  { intros p q. split; auto. split; intros; apply stable_refl. }
  destruct c as [|b v|b v|b|s v|s v|f s u|s u|s u|pred s]; cbn [step builderCmd].
  - split; [|split; intros; apply stable_refl]. destruct Hi as (ob & oa & Ht & Hs & Hb). exists ob, oa.
    cbn [st_heap st_sets st_builders]. split; auto. split; auto. intros i t Hn.
    destruct (Nat.lt_ge_cases i (length (st_builders st))) as [Hl|Hl].
    + rewrite nth_error_app1 in Hn by auto. eauto.
    + rewrite nth_error_app2 in Hn by auto. destruct (i - length (st_builders st)) as [|j]; [|destruct j; discriminate].
      injection Hn as <-. intros p Hp. discriminate.
  - destruct (nth_error (st_builders st) b) as [t0|] eqn:Eb; [|apply Hid].
    destruct (changeBuilder_tag st b t0 (bH_add t0 v) Hi Eb (gr_bH_add _ _)) as (H1 & H2 & H3).
    { intros. apply safe_bH_add; auto. }
    split; auto. split; auto. intros i t Hn Hne. eapply H3; eauto.
  - destruct (nth_error (st_builders st) b) as [t0|] eqn:Eb; [|apply Hid].
    destruct (changeBuilder_tag st b t0 (bH_remove t0 v) Hi Eb (gr_bH_remove _ _)) as (H1 & H2 & H3).
    { intros. apply safe_bH_remove; auto. }
    split; auto. split; auto. intros i t Hn Hne. eapply H3; eauto.
  - destruct (nth_error (st_builders st) b) as [t0|] eqn:Eb; [|apply (Hid true (fun _ => True))].
    split; [apply finish_tag; auto|]. split; intros; apply stable_refl.
  - destruct (nth_error (st_sets st) s) as [t|] eqn:Es; [|apply (Hid false (fun _ => True))]. apply nth_error_In in Es.
    apply Hset; [apply gr_tH_with|]. intros P Q HP. apply safe_tH_with; auto.
  - destruct (nth_error (st_sets st) s) as [t|] eqn:Es; [|apply (Hid false (fun _ => True))]. apply nth_error_In in Es.
    apply Hset; [apply gr_tH_without|]. intros P Q HP. apply safe_tH_without; auto.
  - destruct (nth_error (st_sets st) s) as [t|] eqn:Es; [|apply (Hid false (fun _ => True))].
    destruct (nth_error (st_sets st) u) as [t'|] eqn:Eu; [|apply (Hid false (fun _ => True))].
    apply nth_error_In in Es. apply nth_error_In in Eu. apply Hset; [apply gr_tH_combine|]. intros P Q HP. apply safe_tH_combine; auto.
  - destruct (nth_error (st_sets st) s) as [t|] eqn:Es; [|apply (Hid false (fun _ => True))].
    destruct (nth_error (st_sets st) u) as [t'|] eqn:Eu; [|apply (Hid false (fun _ => True))].
    apply nth_error_In in Es. apply nth_error_In in Eu. apply Hset; [apply gr_tH_difference|]. intros P Q HP. apply safe_tH_difference; auto.
  - destruct (nth_error (st_sets st) s) as [t|] eqn:Es; [|apply (Hid false (fun _ => True))].
    destruct (nth_error (st_sets st) u) as [t'|] eqn:Eu; [|apply (Hid false (fun _ => True))].
    apply nth_error_In in Es. apply nth_error_In in Eu. apply Hset; [apply gr_tH_intersection|]. intros P Q HP. apply safe_tH_intersection; auto.
  - destruct (nth_error (st_sets st) s) as [t|] eqn:Es; [|apply (Hid false (fun _ => True))]. apply nth_error_In in Es.
    apply Hset; [apply gr_tH_where|]. intros P Q HP. apply safe_tH_where; auto.
Qed.

Lemma run_app cs cs' st : run (cs ++ cs') st = run cs' (run cs st).
Proof. apply fold_left_app. Qed.

Lemma run_tag cs : forall st, tagInv st -> tagInv (run cs st).
Proof. induction cs as [|c cs IH]; intros st Hi; cbn; auto. apply IH. apply step_tag; auto. Qed.

(** Sets are never lost. *)
Lemma step_sets st c : exists l, st_sets (step st c) = st_sets st ++ l.
Proof.
  assert (H0 : exists l, st_sets st = st_sets st ++ l) by (exists []; rewrite app_nil_r; auto).
  assert (Hm : forall m, exists l, st_sets (makeSet st m) = st_sets st ++ l).
  { intros m. unfold makeSet. destruct (m (st_heap st)) as [[t| |] h]; cbn; eauto. }
  assert (Hc : forall b m, exists l, st_sets (changeBuilder st b m) = st_sets st ++ l).
  { intros b m. unfold changeBuilder. destruct (m (st_heap st)) as [[t| |] h]; cbn; auto. }
  destruct c; cbn [step]; auto;
    repeat match goal with |- context [match nth_error ?l ?i with _ => _ end] => destruct (nth_error l i) end; auto.
  cbn. eauto.
Qed.

(** Any sequence of commands of builders leaves all sets unchanged. *)
Lemma builders_isolated cs : forall st, tagInv st -> forallb builderCmd cs = true ->
  forall i t, nth_error (st_sets st) i = Some t ->
  nth_error (st_sets (run cs st)) i = Some t /\ unchanged (st_heap st) (st_heap (run cs st)) t.
Proof.
  induction cs as [|c cs IH]; intros st Hi Hb i t Ht; cbn; [split; [auto|apply unchanged_refl]|].
  cbn in Hb. apply andb_prop in Hb as [Hb1 Hb2]. destruct (step_tag st c Hi) as (H1 & H2 & _).
  destruct (step_sets st c) as [l Hl].
  destruct (IH (step st c) H1 Hb2 i t) as [A1 A2].
  { rewrite Hl, nth_error_app1; auto. eapply lt_nth; eauto. }
  split; auto. eapply unchanged_trans; [|exact A2]. apply stable_unchanged. apply H2; auto. eapply nth_error_In; eauto.
Qed.

(** Any sequence of commands that do not use builder [b] leaves it unchanged. *)
Definition usesBuilder (b : nat) (c : cmd) : bool :=
  match c with CAdd b' _ | CRemove b' _ | CFinish b' => b =? b' | _ => false end.

Lemma step_builder st c b t : nth_error (st_builders st) b = Some t -> usesBuilder b c = false ->
  nth_error (st_builders (step st c)) b = Some t.
Proof.
  intros Hb Hu.
  assert (Hm : forall m, nth_error (st_builders (makeSet st m)) b = Some t).
  { intros m. unfold makeSet. destruct (m (st_heap st)) as [[x| |] h]; auto. }
  assert (Hc : forall b' m, b <> b' -> nth_error (st_builders (changeBuilder st b' m)) b = Some t).
  { intros b' m Hn. unfold changeBuilder. destruct (m (st_heap st)) as [[x| |] h]; auto. cbn. rewrite nth_error_set_nth_ne; auto. }
  destruct c; cbn [step usesBuilder] in *;
    repeat match goal with |- context [match nth_error ?l ?i with _ => _ end] => destruct (nth_error l i) end; auto;
    try (apply Nat.eqb_neq in Hu); auto.
  - cbn. rewrite nth_error_app1; auto. eapply lt_nth; eauto.
  - cbn. rewrite nth_error_set_nth_ne; auto.
Qed.

Lemma builder_isolated cs b t : forall st, tagInv st -> forallb (fun c => negb (usesBuilder b c)) cs = true ->
  nth_error (st_builders st) b = Some t ->
  nth_error (st_builders (run cs st)) b = Some t /\ unchanged (st_heap st) (st_heap (run cs st)) t.
Proof.
  induction cs as [|c cs IH]; intros st Hi Hu Ht; cbn; [split; [auto|apply unchanged_refl]|].
  cbn in Hu. apply andb_prop in Hu as [Hu1 Hu2]. apply negb_true_iff in Hu1. destruct (step_tag st c Hi) as (H1 & _ & H3).
  destruct (IH (step st c) H1 Hu2) as [A1 A2]; [apply step_builder; auto|].
  split; auto. eapply unchanged_trans; [|exact A2]. apply stable_unchanged. eapply H3; eauto.
  destruct c; auto; cbn in Hu1; apply Nat.eqb_neq; auto.
Qed.

End Prog.
Arguments cmd : clear implicits.
