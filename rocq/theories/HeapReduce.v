(** * HeapReduce: Reduce on the heap, with a callback that may assign to its arguments.

    [r(l.data...)] (leaf2.go:168-170, twig.go:216-218) hands the callback a slice of the set's own memory. Here a callback
    is a function of the arguments it reads that gives its result and what it does with the slice: assignments to its
    elements, and appends to it. *)
From Coq Require Import Sorting.Permutation.
From Verif Require Import Base Bits Env EnvFacts Node NodeWf NodeAdd NodeRemove NodeUn Tree HeapModel HeapFrame HeapOwn HeapRep HeapProg.
Local Open Scope nat_scope.

Section Reduce.
Context {E : Env} {T : Type} {K : Key T} (grow : nat -> nat -> nat).
Notation obj := (obj (T := T)).
Notation heap := (heap (T := T)).
Notation array := (array (T := T)).
Notation M := (M (T := T)).
Notation node := (node T).
Local Opaque maxTreeDepth fanout fb.

(** What a callback [func(elems ...T) T] does with [elems]: [elems[i] = v] and [elems = append(elems, v)]. *)
Inductive act : Type := ASet (i : nat) (v : T) | AApp (v : T).
(** Simplifications: a callback reads its arguments before it assigns to them (later reads can be computed from these and
    from the assignments made), and uses no other slice and no set. *)
Definition callback : Type := list T -> T * list act.

(** The variable [elems]: the two elements of a leaf2 node (a slice of capacity 2 of the node's array), or a slice. *)
Inductive argvar : Type := RNode (p : nat) | RSlice (sl : slice).

(** An index out of range panics. An append to the slice of a leaf2 node copies it. *)
Fixpoint runActs (acts : list act) (x : argvar) : M unit :=
  match acts with
  | [] => ret tt
  | ASet i v :: acts' =>
      match x with
      | RNode p =>
          o <~ load p ;;
          match o, i with
          | OLeaf2 a b, 0 => _ <~ store p (OLeaf2 v b) ;; runActs acts' x
          | OLeaf2 a b, 1 => _ <~ store p (OLeaf2 a v) ;; runActs acts' x
          | _, _ => fail Panic
          end
      | RSlice sl => if i <? snd sl then _ <~ setSlot sl i v ;; runActs acts' x else fail Panic
      end
  | AApp v :: acts' =>
      match x with
      | RNode p =>
          o <~ load p ;;
          match o with
          | OLeaf2 a b => r <~ allocArr (mkArray [a; b; v] (Nat.max 3 (grow 2 3)) 3) ;; runActs acts' (RSlice (r, 3))
          | _ => fail Panic
          end
      | RSlice sl => sl' <~ append grow sl v ;; runActs acts' (RSlice sl')
      end
  end.

(** The call [r(elems...)]. *)
Definition callH (f : callback) (x : argvar) (elems : list T) : M T :=
  _ <~ runActs (snd (f elems)) x ;; ret (fst (f elems)).

(** branch.go:209-213: the loop that fills [results]. Goroutines run one after the other (see HeapModel.v). *)
Fixpoint reduceH_loop (F : nat -> M T) (order : list nat) (results : list (option T)) : M (list (option T)) :=
  match order with
  | [] => ret results
  | i :: order' => t <~ F i ;; reduceH_loop F order' (set_nth results i (Some t))
  end.

(** leaf1.go:125-127, leaf2.go:168-170, twig.go:216-218, branch.go:207-220 [Reduce]. The arguments of a leaf1 node and the
    results of a branch (an array of its own, of length fanout) are new memory. *)
Fixpoint reduceH (fuel : nat) (g : gauge) (f : callback) (p depth : nat) : M T :=
  match fuel with
  | O => fail Fuel
  | S k =>
      o <~ load p ;;
      match o with
      | OLeaf1 a => sl <~ newSlice [a] ;; callH f (RSlice sl) [a]
      | OLeaf2 a b => callH f (RNode p) [a; b]
      | OTwig r len => l <~ elemsOf (r, len) ;; callH f (RSlice (r, len)) l
      | OBranch mask data =>
          results <~ reduceH_loop (fun i =>
              match childP data i with
              | None => fail Panic                                        (* nil receiver *)
              | Some c => reduceH k (g_sub i g) f c (S depth)
              end) (par_order g depth mask) (repeat None fanout) ;;
          l <~ fail (foldM (fun acc i => match nth i results None with Some t => Ok (acc ++ [t]) | None => Panic end) []
                       (mask_indices mask)) ;;
          r <~ allocArr (mkArray l fanout (length l)) ;;
          callH f (RSlice (r, length l)) l
      end
  end.

(** tree.go:157-162, set.go:233-235 [Reduce]; [None] is [(zero, false)]. *)
Definition tH_reduce (t : ptree) (f : callback) : M (option T) :=
  match pt_root t with
  | None => ret None
  | Some p => v <~ reduceH treeFuel (newGauge (pt_count t)) f p 0 ;; ret (Some v)
  end.

(** ** What Reduce may change: memory of the set *)

Ltac gr2 := first
  [ assumption | apply gr_ret | apply gr_fail | apply gr_alloc | apply gr_load | apply gr_store | apply gr_allocArr
  | apply gr_loadArr | apply gr_storeArr | apply gr_elemsOf | apply gr_newSlice | apply gr_setSlot | apply gr_append | apply gr_bind
  | match goal with
    | |- grows (match ?x with _ => _ end) => destruct x
    | |- forall _, _ => intro
    | H : forall _, _ |- grows _ => apply H
    | |- grows _ => progress (cbv beta zeta)
    end ].
Lemma gr_runActs acts : forall x, grows (runActs acts x).
Proof. induction acts as [|[i v|v] acts IH]; intros x; cbn [runActs]; repeat first [apply IH|gr2]. Qed.
Lemma gr_callH f x l : grows (callH f x l).
Proof. unfold callH. repeat first [apply gr_runActs|gr2]. Qed.
Lemma gr_reduceH_loop F order : (forall i, grows (F i)) -> forall results, grows (reduceH_loop F order results).
Proof. intros H. induction order as [|i order IH]; intros results; cbn [reduceH_loop]; repeat gr2. Qed.
Lemma gr_reduceH k : forall g f p d, grows (reduceH k g f p d).
Proof.
  induction k as [|k IH]; intros g f p d; cbn [reduceH]; [apply gr_fail|].
  repeat first [apply gr_callH | apply gr_reduceH_loop | gr2].
Qed.
Ltac grr := solve [repeat first [apply gr_callH | apply gr_runActs | apply gr_reduceH | apply gr_reduceH_loop | gr2]].

Definition inVar (P Q : nat -> Prop) (x : argvar) : Prop := match x with RNode p => P p | RSlice sl => Q (fst sl) end.

Lemma safe_runActs P Q acts : forall x, inVar P Q x -> safe P Q (runActs acts x) (fun _ => True).
Proof.
  induction acts as [|[i v|v] acts IH]; intros x Hx; cbn [runActs]; [apply safe_ret; exact Logic.I| |].
  - destruct x as [p|sl]; cbn in Hx.
    + eapply safe_bind; [grr|apply safe_load; exact Hx|]. intros o Ho.
      destruct o as [a|a b|r len|m d]; try (apply safe_fail; discriminate).
      destruct i as [|[|i]]; try (apply safe_fail; discriminate);
        (eapply safe_bind; [grr|apply safe_store; [exact Hx|exact Logic.I]|]; intros ? _; apply IH; exact Hx).
    + destruct (i <? snd sl); [|apply safe_fail; discriminate].
      eapply safe_bind; [grr|apply safe_setSlot; exact Hx|]. intros ? _. apply IH. exact Hx.
  - destruct x as [p|sl]; cbn in Hx.
    + eapply safe_bind; [grr|apply safe_load; exact Hx|]. intros o Ho.
      destruct o as [a|a b|r len|m d]; try (apply safe_fail; discriminate).
      eapply safe_bind; [grr|apply safe_allocArr|]. intros r Hr. apply IH. exact Hr.
    + eapply safe_bind; [grr|apply safe_append; exact Hx|]. intros sl' Hs. apply IH. exact Hs.
Qed.

Lemma safe_callH P Q f x l : inVar P Q x -> safe P Q (callH f x l) (fun _ => True).
Proof. intros Hx. unfold callH. eapply safe_bind; [grr|apply safe_runActs; exact Hx|]. intros _ _. apply safe_ret. exact Logic.I. Qed.

Lemma safe_reduceH_loop P Q F order : (forall i, grows (F i)) -> (forall i, safe P Q (F i) (fun _ => True)) ->
  forall results, safe P Q (reduceH_loop F order results) (fun _ => True).
Proof.
  intros Hg HF. induction order as [|i order IH]; intros results; cbn [reduceH_loop]; [apply safe_ret; exact Logic.I|].
  eapply safe_bind; [grr|apply HF|]. intros t _. apply IH.
Qed.

Lemma safe_lift P Q {A} (r : res A) : safe (T := T) P Q (fail r) (fun _ => True).
Proof. intros h Hc _ _. cbn. split; auto. split; [apply within_refl|auto]. Qed.

Lemma safe_reduceH (P Q : nat -> Prop) k : forall g f p d, P p -> safe P Q (reduceH k g f p d) (fun _ => True).
Proof.
  induction k as [|k IH]; intros g f p d Hp; cbn [reduceH]; [apply safe_fail; discriminate|].
  eapply safe_bind; [grr|apply safe_load; exact Hp|]. intros o Ho. destruct o as [a|a b|r len|m data].
  - eapply safe_bind; [grr|apply safe_newSlice|]. intros sl Hs. apply safe_callH. exact Hs.
  - apply safe_callH. exact Hp.
  - eapply safe_bind; [grr|apply safe_elemsOf|]. intros l _. apply safe_callH. exact Ho.
  - eapply safe_bind; [grr|apply safe_reduceH_loop; [grr|]|].
    { intros i. destruct (childP data i) as [c|] eqn:Ec; [|apply safe_fail; discriminate]. apply IH. apply Ho.
      unfold childP in Ec. rewrite <- Ec. apply nth_In. destruct (Nat.lt_ge_cases i (length data)); auto.
      rewrite nth_overflow in Ec by auto. discriminate. }
    intros results _. eapply safe_bind; [grr|apply safe_lift|]. intros l _.
    eapply safe_bind; [grr|apply safe_allocArr|]. intros r Hr. apply safe_callH. exact Hr.
Qed.

(** ** The loop over the children of a branch *)

Lemma bind_load {A} p o (k : obj -> M A) h : nth_error (h_objs h) p = Some o -> bindM (load p) k h = k o h.
Proof. intros H. unfold bindM, load. rewrite H. reflexivity. Qed.
Lemma bind_ok {A B} (m : M A) (k : A -> M B) h a h' : m h = (Ok a, h') -> bindM m k h = k a h'.
Proof. intros H. unfold bindM. rewrite H. reflexivity. Qed.
Lemma bind_panic {A B} (m : M A) (k : A -> M B) h h' : m h = (Panic, h') -> bindM m k h = (Panic, h').
Proof. intros H. unfold bindM. rewrite H. reflexivity. Qed.
Lemma bind_fuel {A B} (m : M A) (k : A -> M B) h h' : m h = (Fuel, h') -> bindM m k h = (Fuel, h').
Proof. intros H. unfold bindM. rewrite H. reflexivity. Qed.
Lemma bind_slice {B} (l : list T) (k : slice -> M B) h :
  bindM (newSlice l) k h = k (length (h_arrs h), length l) (mkHeap (h_objs h) (h_arrs h ++ [mkArray l (length l) (length l)]) (h_over h) (h_log h)).
Proof. reflexivity. Qed.
Lemma bind_arr {B} a (k : nat -> M B) h : bindM (allocArr a) k h = k (length (h_arrs h)) (mkHeap (h_objs h) (h_arrs h ++ [a]) (h_over h) (h_log h)).
Proof. reflexivity. Qed.

Lemma loop_ok (R : heap -> heap -> Prop) (C : Prop) (F : nat -> M T) (G : nat -> res T) (f : nat -> list (option T) -> res (bool * Z * list (option T))) :
  (forall h, R h h) -> (forall h1 h2 h3, R h1 h2 -> R h2 h3 -> R h1 h3) ->
  (forall i s, f i s = (t <- G i ;; Ok (true, 0%Z, set_nth s i (Some t)))) ->
  forall h, (forall i h1, R h h1 -> R h1 (snd (F i h1)) /\ (C -> fst (F i h1) = G i)) ->
  forall order h1 m results, R h h1 ->
  R h (snd (reduceH_loop F order results h1)) /\
  (C -> fst (reduceH_loop F order results h1) = ('(_, _, s) <- par_loop f order m results ;; Ok s)).
Proof.
  intros Hr Ht Hf h HF order. induction order as [|i order IH]; intros h1 m results H1; cbn [reduceH_loop par_loop].
  { cbn. auto. }
  destruct (HF i h1 H1) as [A1 A2]. unfold bindM. destruct (F i h1) as [[t| |] h2]; cbn [fst snd] in *.
  - destruct (IH h2 (m + 0)%Z (set_nth results i (Some t))) as [B1 B2]; [eapply Ht; eauto|]. split; [exact B1|].
    intros HC. rewrite B2 by exact HC. rewrite Hf, <- A2 by exact HC. cbn [bind]. reflexivity.
  - split; [eapply Ht; eauto|]. intros HC. rewrite Hf, <- A2 by exact HC. reflexivity.
  - split; [eapply Ht; eauto|]. intros HC. rewrite Hf, <- A2 by exact HC. reflexivity.
Qed.

(** ** Callbacks that do not touch their arguments *)

Definition silent (f : callback) : Prop := forall l, snd (f l) = [].

Lemma callH_silent f x l h : silent f -> callH f x l h = (Ok (fst (f l)), h).
Proof. intros H. unfold callH. rewrite H. reflexivity. Qed.

Lemma holds_elems h r (l : list T) : holds h r l -> elemsOf (r, length l) h = (Ok l, h).
Proof. intros (a & H1 & _ & _ & H4). unfold elemsOf, bindM, loadArr, ret. cbn. rewrite H1. rewrite H4. reflexivity. Qed.

Lemma readAll_mono (f f' : nat -> option node) d l : (forall c n, f c = Some n -> f' c = Some n) -> readAll f d = Some l -> readAll f' d = Some l.
Proof.
  intros H. revert l. induction d as [|[c|] d IH]; cbn [readAll]; intros l Hl; auto.
  - destruct (f c) as [n|] eqn:Ec; [|discriminate]. destruct (readAll f d) as [l'|]; [|discriminate]. rewrite (H c n Ec), (IH l' eq_refl). exact Hl.
  - destruct (readAll f d) as [l'|]; [|discriminate]. rewrite (IH l' eq_refl). exact Hl.
Qed.
Lemma readN_add (h h' : heap) : addonly h h' -> forall fuel p n, readN fuel h p = Some n -> readN fuel h' p = Some n.
Proof.
  intros ([l1 A1] & [l2 A2] & _). induction fuel as [|k IH]; intros p n; cbn [readN]; [discriminate|].
  destruct (nth_error (h_objs h) p) as [o|] eqn:Ep; [|discriminate].
  rewrite A1, nth_error_app1, Ep by (eapply nth_error_Some_lt; eauto). destruct o as [a|a b|r len|m d]; auto.
  - destruct (nth_error (h_arrs h) r) as [a|] eqn:Er; [|discriminate]. rewrite A2, nth_error_app1, Er by (eapply nth_error_Some_lt; eauto). auto.
  - destruct (readAll (readN k h) d) as [l|] eqn:El; [|discriminate]. rewrite (readAll_mono _ (readN k h') d l IH El). auto.
Qed.
Lemma readT_add (h h' : heap) fuel t u : addonly h h' -> readT fuel h t = Some u -> readT fuel h' t = Some u.
Proof.
  intros Ha. unfold readT. destruct (pt_root t) as [p|]; auto. destruct (readN fuel h p) as [n|] eqn:En; [|discriminate].
  rewrite (readN_add h h' Ha fuel p n En). auto.
Qed.

Lemma reduceH_silent k : forall fuel g f p n d h, silent f -> readN fuel h p = Some n ->
  addonly h (snd (reduceH k g f p d h)) /\ fst (reduceH k g f p d h) = reduce k g (fun l => fst (f l)) n d.
Proof.
  induction k as [|k IH]; intros [|fuel] g f p n d h Hf Hr; try discriminate; [split; [apply addonly_refl|reflexivity]|].
  cbn [reduceH reduce]. cbn [readN] in Hr. destruct (nth_error (h_objs h) p) as [o|] eqn:Ho; [|discriminate]. rewrite !(bind_load _ _ _ _ Ho).
  destruct o as [a|a b|r len|m da].
  - injection Hr as <-. rewrite !bind_slice. rewrite !callH_silent by auto. cbn [fst snd]. split; [|reflexivity].
    split; [|split]; cbn; [exists []|eexists; reflexivity|exists []]; rewrite app_nil_r; auto.
  - injection Hr as <-. rewrite !callH_silent by auto. split; [apply addonly_refl|reflexivity].
  - destruct (nth_error (h_arrs h) r) as [a|] eqn:Ea; [|discriminate]. injection Hr as <-.
    assert (He : elemsOf (r, len) h = (Ok (firstn len (a_slots a)), h)) by (unfold elemsOf, bindM, loadArr; cbn; rewrite Ea; reflexivity).
    rewrite !(bind_ok _ _ _ _ _ He). rewrite !callH_silent by auto. split; [apply addonly_refl|reflexivity].
  - destruct (readAll (readN fuel h) da) as [ds|] eqn:Ed; [|discriminate]. injection Hr as <-. unfold parallel.
    match goal with |- context [par_loop ?x _ _ _] => set (f0 := x) end.
    match goal with |- context [reduceH_loop ?x _ _] => set (F := x) end.
    destruct (loop_ok addonly True F (fun i => match child ds i with None => Panic | Some x => reduce k (g_sub i g) (fun l => fst (f l)) x (S d) end) f0
      addonly_refl addonly_trans) with (h := h) (order := par_order g d m) (h1 := h) (m := 0%Z) (results := repeat (@None T) fanout) as [A1 A2].
    + intros i s. unfold f0. destruct (child ds i); reflexivity.
    + intros i h1 H1. unfold F. assert (Hi := readAll_child _ _ _ i Ed). destruct (childP da i) as [c|].
      * destruct Hi as (nc & Hc & ->). destruct (IH fuel (g_sub i g) f c nc (S d) h1 Hf (readN_add _ _ H1 _ _ _ Hc)) as [B1 B2]. split; auto.
      * rewrite Hi. split; [apply addonly_refl|reflexivity].
    + apply addonly_refl.
    + specialize (A2 Logic.I). destruct (reduceH_loop F (par_order g d m) (repeat None fanout) h) as [o h1] eqn:El. cbn [fst snd] in A1, A2. subst o.
      destruct (par_loop f0 (par_order g d m) 0 (repeat None fanout)) as [[[ok mm] results]| |]; cbn [bind] in *;
        [|rewrite !(bind_panic _ _ _ _ El); split; [exact A1|reflexivity]|rewrite !(bind_fuel _ _ _ _ El); split; [exact A1|reflexivity]].
      rewrite !(bind_ok _ _ _ _ _ El). unfold fail. destruct (foldM _ [] (mask_indices m)) as [l| |]; cbn [bind]; try (split; [exact A1|reflexivity]).
      unfold bindM, allocArr. rewrite !callH_silent by auto. split; [|reflexivity]. cbn [snd].
      eapply addonly_trans; [exact A1|]. split; [|split]; cbn; [exists []|eexists; reflexivity|exists []]; rewrite app_nil_r; auto.
Qed.

(** ** Callbacks that put their arguments in another order *)

(** What the assignments leave in [elems], [None] if they append or leave the range. *)
Fixpoint final (acts : list act) (l : list T) : option (list T) :=
  match acts with
  | [] => Some l
  | ASet i v :: acts' => if i <? length l then final acts' (set_nth l i v) else None
  | AApp _ :: _ => None
  end.
Definition permuting (f : callback) : Prop := forall l, exists l', final (snd (f l)) l = Some l' /\ Permutation l l'.

(** Sets whose buckets use all claimed slots of their arrays: no other set has a longer bucket in the same array. *)
Inductive tight (h : heap) : nat -> Prop :=
| tight_leaf1 p a : nth_error (h_objs h) p = Some (OLeaf1 a) -> tight h p
| tight_leaf2 p a b : nth_error (h_objs h) p = Some (OLeaf2 a b) -> tight h p
| tight_twig p r a : nth_error (h_objs h) p = Some (OTwig r (a_used a)) -> nth_error (h_arrs h) r = Some a -> a_used a <= length (a_slots a) -> tight h p
| tight_branch p m d : nth_error (h_objs h) p = Some (OBranch m d) -> (forall c, In (Some c) d -> tight h c) -> tight h p.

(** Leaves hold the same elements, possibly in another order. *)
Definition objShuf (o o' : obj) : Prop :=
  match o, o' with
  | OLeaf2 a b, OLeaf2 c d => Permutation [a; b] [c; d]
  | OLeaf2 _ _, _ => False
  | _, _ => o' = o
  end.
Definition arrShuf (a a' : array) : Prop :=
  a_cap a' = a_cap a /\ a_used a' = a_used a /\ length (a_slots a') = length (a_slots a) /\
  Permutation (firstn (a_used a) (a_slots a)) (firstn (a_used a) (a_slots a')).
Definition shuffled (h h' : heap) : Prop :=
  (forall p o, nth_error (h_objs h) p = Some o -> exists o', nth_error (h_objs h') p = Some o' /\ objShuf o o') /\
  (forall r a, nth_error (h_arrs h) r = Some a -> exists a', nth_error (h_arrs h') r = Some a' /\ arrShuf a a').

Lemma objShuf_refl o : objShuf o o.
Proof. destruct o; cbn; auto. Qed.
Lemma objShuf_trans o1 o2 o3 : objShuf o1 o2 -> objShuf o2 o3 -> objShuf o1 o3.
Proof.
  destruct o1, o2; cbn; try contradiction; try discriminate; try (intros -> ; auto); try (intros [= -> ->]; auto); try (intros [= ->]; auto).
  destruct o3; cbn; try contradiction. apply Permutation_trans.
Qed.
Lemma arrShuf_refl a : arrShuf a a.
Proof. unfold arrShuf. auto. Qed.
Lemma arrShuf_trans a1 a2 a3 : arrShuf a1 a2 -> arrShuf a2 a3 -> arrShuf a1 a3.
Proof.
  intros (A1 & A2 & A3 & A4) (B1 & B2 & B3 & B4). rewrite A2 in B4. split; [congruence|]. split; [congruence|]. split; [congruence|].
  eapply Permutation_trans; eauto.
Qed.
Lemma shuffled_refl h : shuffled h h.
Proof. split; [intros p o H; exists o; split; auto; apply objShuf_refl|intros r a H; exists a; split; auto; apply arrShuf_refl]. Qed.
Lemma shuffled_trans h1 h2 h3 : shuffled h1 h2 -> shuffled h2 h3 -> shuffled h1 h3.
Proof.
  intros [A1 A2] [B1 B2]. split.
  - intros p o H. destruct (A1 p o H) as (o' & H1 & H2). destruct (B1 p o' H1) as (o'' & H3 & H4). exists o''. split; auto. eapply objShuf_trans; eauto.
  - intros r a H. destruct (A2 r a H) as (a' & H1 & H2). destruct (B2 r a' H1) as (a'' & H3 & H4). exists a''. split; auto. eapply arrShuf_trans; eauto.
Qed.
Lemma shuffled_add h h' : addonly h h' -> shuffled h h'.
Proof.
  intros ([l1 A1] & [l2 A2] & _). split.
  - intros p o H. exists o. split; [|apply objShuf_refl]. rewrite A1, nth_error_app1; auto. eapply nth_error_Some_lt; eauto.
  - intros r a H. exists a. split; [|apply arrShuf_refl]. rewrite A2, nth_error_app1; auto. eapply nth_error_Some_lt; eauto.
Qed.

Lemma tight_shuf h h' p : shuffled h h' -> tight h p -> tight h' p.
Proof.
  intros [S1 S2] H. induction H as [p a Ho|p a b Ho|p r a Ho Ha Hu|p m d Ho Hc IH]; destruct (S1 _ _ Ho) as (o' & Ho' & Hs).
  - cbn in Hs. subst o'. eapply tight_leaf1; eauto.
  - destruct o'; cbn in Hs; try contradiction. eapply tight_leaf2; eauto.
  - cbn in Hs. subst o'. destruct (S2 _ _ Ha) as (a' & Ha' & H1 & H2 & H3 & H4). rewrite <- H2 in Ho'.
    eapply tight_twig; eauto. lia.
  - cbn in Hs. subst o'. eapply tight_branch; eauto.
Qed.

(** The same for nodes as values. *)
Inductive shuf : node -> node -> Prop :=
| shuf_leaf1 a : shuf (Leaf1 a) (Leaf1 a)
| shuf_leaf2 a b c d : Permutation [a; b] [c; d] -> shuf (Leaf2 a b) (Leaf2 c d)
| shuf_twig l l' : Permutation l l' -> shuf (Twig l) (Twig l')
| shuf_branch m ds ds' : shufs ds ds' -> shuf (Branch m ds) (Branch m ds')
with shufs : list (option node) -> list (option node) -> Prop :=
| shufs_nil : shufs [] []
| shufs_none ds ds' : shufs ds ds' -> shufs (None :: ds) (None :: ds')
| shufs_some n n' ds ds' : shuf n n' -> shufs ds ds' -> shufs (Some n :: ds) (Some n' :: ds').
Scheme shuf_ind2 := Minimality for shuf Sort Prop with shufs_ind2 := Minimality for shufs Sort Prop.
Combined Scheme shuf_mut from shuf_ind2, shufs_ind2.

Lemma shufs_child ds ds' i : shufs ds ds' ->
  (child ds i = None /\ child ds' i = None) \/ (exists n n', child ds i = Some n /\ child ds' i = Some n' /\ shuf n n').
Proof.
  intros H. revert i. induction H as [|ds ds' H IH|n n' ds ds' H1 H2 IH]; intros [|i]; cbn; auto; try (apply IH).
  right. eauto.
Qed.

Lemma shuf_elems_mut : (forall n n', shuf n n' -> Permutation (elems n) (elems n')) /\
  (forall ds ds', shufs ds ds' -> Permutation (flat_map elemso ds) (flat_map elemso ds')).
Proof.
  apply shuf_mut; intros; rewrite ?elems_branch; cbn [flat_map elemso elems]; auto. apply Permutation_app; auto.
Qed.
Definition shuf_elems n n' := proj1 shuf_elems_mut n n'.

Lemma shuf_refl_mut : (forall n, shuf n n).
Proof.
  fix IH 1. intros [a|a b|l|m ds]; constructor; auto. induction ds as [|[n|] ds IHds]; constructor; auto.
Qed.

(** A callback whose result does not depend on the order of its arguments. *)
Definition anyOrder (r : list T -> T) : Prop := forall l l', Permutation l l' -> r l = r l'.

Lemma par_loop_ext {S} (f f' : nat -> S -> res (bool * Z * S)) : (forall i s, f i s = f' i s) ->
  forall order m s, par_loop f order m s = par_loop f' order m s.
Proof.
  intros H order. induction order as [|i order IH]; intros m s; cbn [par_loop]; auto. rewrite H. destruct (f' i s) as [[[[|] m'] s']| |]; cbn; auto.
Qed.

Lemma reduce_shuf k : forall g r n n' d, anyOrder r -> shuf n n' -> reduce k g r n d = reduce k g r n' d.
Proof.
  induction k as [|k IH]; intros g r n n' d Hr H; [reflexivity|]. cbn [reduce]. destruct H as [a|a b c e H|l l' H|m ds ds' H]; try (f_equal; auto; fail).
  unfold parallel. erewrite par_loop_ext; [reflexivity|]. intros i s. cbn beta.
  destruct (shufs_child ds ds' i H) as [[-> ->]|(x & x' & -> & -> & Hx)]; auto. rewrite (IH (g_sub i g) r x x' (S d)); auto.
Qed.

(** The nodes of every tight set. *)
Lemma rep_shuf_mut h h' : shuffled h h' -> (forall p n, rep h p n -> tight h p -> exists n', rep h' p n' /\ shuf n n') /\
  (forall d ds, reps h d ds -> (forall c, In (Some c) d -> tight h c) -> exists ds', reps h' d ds' /\ shufs ds ds').
Proof.
  intros [S1 S2].
  apply (rep_mut h (fun p n => tight h p -> exists n', rep h' p n' /\ shuf n n')
    (fun d ds => (forall c, In (Some c) d -> tight h c) -> exists ds', reps h' d ds' /\ shufs ds ds')).
  - intros p a Ho _. destruct (S1 _ _ Ho) as (o' & Ho' & Hs). cbn in Hs. subst o'. exists (Leaf1 a). split; constructor; auto.
  - intros p a b Ho _. destruct (S1 _ _ Ho) as (o' & Ho' & Hs). destruct o' as [|c e| |]; cbn in Hs; try contradiction.
    exists (Leaf2 c e). split; constructor; auto.
  - intros p r l Ho (a & Ha & Hu & Hs & Hl) Ht. destruct (S1 _ _ Ho) as (o' & Ho' & Hsh). cbn in Hsh. subst o'.
    assert (Hlen : length l = a_used a).
    { inversion Ht as [? ? H1|? ? ? H1|? r' a' H1 H2 H3|? ? ? H1 H2]; subst; congruence. }
    destruct (S2 _ _ Ha) as (a' & Ha' & H1 & H2 & H3 & H4). exists (Twig (firstn (length l) (a_slots a'))).
    assert (Hl' : length (firstn (length l) (a_slots a')) = length l) by (rewrite firstn_length; lia).
    split.
    + econstructor; [rewrite Hl'; exact Ho'|]. exists a'. rewrite Hl'. split; auto. split; [lia|]. split; [lia|]. reflexivity.
    + constructor. rewrite <- Hl at 1. rewrite Hlen. exact H4.
  - intros p m d ds Ho _ IH Ht. destruct (S1 _ _ Ho) as (o' & Ho' & Hsh). cbn in Hsh. subst o'.
    destruct IH as (ds' & H1 & H2); [|exists (Branch m ds'); split; [econstructor; eauto|constructor; auto]].
    inversion Ht as [? ? X1|? ? ? X1|? r' a' X1 X2 X3|? m' d' X1 X2]; subst; try congruence. assert (d' = d) by congruence. subst. auto.
  - intros _. exists []. split; constructor.
  - intros d ds _ IH Ht. destruct IH as (ds' & H1 & H2); [intros c Hc; apply Ht; right; auto|]. exists (None :: ds'). split; constructor; auto.
  - intros c n d ds _ IH1 _ IH2 Ht. destruct IH1 as (n' & H1 & H2); [apply Ht; left; auto|].
    destruct IH2 as (ds' & H3 & H4); [intros c' Hc; apply Ht; right; auto|]. exists (Some n' :: ds'). split; constructor; auto.
Qed.
Definition rep_shuf h h' H := proj1 (rep_shuf_mut h h' H).

(** What assignments do. *)
Lemma runActs_node acts : forall p a b h l', nth_error (h_objs h) p = Some (OLeaf2 a b) -> final acts [a; b] = Some l' ->
  exists c d, l' = [c; d] /\ fst (runActs acts (RNode p) h) = Ok tt /\
    h_arrs (snd (runActs acts (RNode p) h)) = h_arrs h /\
    nth_error (h_objs (snd (runActs acts (RNode p) h))) p = Some (OLeaf2 c d) /\
    (forall q, q <> p -> nth_error (h_objs (snd (runActs acts (RNode p) h))) q = nth_error (h_objs h) q).
Proof.
  induction acts as [|[i v|v] acts IH]; intros p a b h l' Ho Hf; cbn [final] in Hf; [| |discriminate].
  - injection Hf as <-. exists a, b. cbn. auto.
  - assert (Hp := nth_error_Some_lt _ _ _ Ho). cbn [runActs]. rewrite !(bind_load _ _ _ _ Ho).
    destruct i as [|[|i]]; cbn [length Nat.ltb Nat.leb] in Hf; [| |discriminate]; cbn [set_nth] in Hf.
    + unfold bindM, store.
      match goal with |- context [runActs acts (RNode p) ?x] => set (h1 := x) end.
      destruct (IH p v b h1 l') as (c & d & H1 & H2 & H3 & H4 & H5); auto.
      { unfold h1. cbn. apply nth_error_set_nth_eq. exact Hp. }
      exists c, d. split; auto. split; auto. split; [rewrite H3; reflexivity|]. split; auto.
      intros q Hq. rewrite H5 by auto. unfold h1. cbn. apply nth_error_set_nth_ne. auto.
    + unfold bindM, store.
      match goal with |- context [runActs acts (RNode p) ?x] => set (h1 := x) end.
      destruct (IH p a v h1 l') as (c & d & H1 & H2 & H3 & H4 & H5); auto.
      { unfold h1. cbn. apply nth_error_set_nth_eq. exact Hp. }
      exists c, d. split; auto. split; auto. split; [rewrite H3; reflexivity|]. split; auto.
      intros q Hq. rewrite H5 by auto. unfold h1. cbn. apply nth_error_set_nth_ne. auto.
Qed.

Lemma firstn_set_nth {A} (l : list A) i n v : i < n -> firstn n (set_nth l i v) = set_nth (firstn n l) i v.
Proof.
  revert i n. induction l as [|x l IH]; intros [|i] [|n] H; cbn; auto; try lia. rewrite IH by lia. reflexivity.
Qed.
Lemma skipn_set_nth {A} (l : list A) i n v : i < n -> skipn n (set_nth l i v) = skipn n l.
Proof.
  revert i n. induction l as [|x l IH]; intros [|i] [|n] H; cbn; auto; try lia. apply IH. lia.
Qed.

Lemma runActs_slice acts : forall r len a h l', nth_error (h_arrs h) r = Some a -> len <= length (a_slots a) ->
  final acts (firstn len (a_slots a)) = Some l' ->
  fst (runActs acts (RSlice (r, len)) h) = Ok tt /\ h_objs (snd (runActs acts (RSlice (r, len)) h)) = h_objs h /\
  length l' = len /\
  nth_error (h_arrs (snd (runActs acts (RSlice (r, len)) h))) r = Some (mkArray (l' ++ skipn len (a_slots a)) (a_cap a) (a_used a)) /\
  (forall q, q <> r -> nth_error (h_arrs (snd (runActs acts (RSlice (r, len)) h))) q = nth_error (h_arrs h) q).
Proof.
  induction acts as [|[i v|v] acts IH]; intros r len a h l' Ha Hl Hf; cbn [final] in Hf; [| |discriminate].
  - injection Hf as <-. cbn. rewrite firstn_skipn, firstn_length. destruct a as [s c u]. cbn in *. split; [auto|]. split; [auto|]. split; [lia|]. auto.
  - assert (Hr := nth_error_Some_lt _ _ _ Ha). cbn [runActs snd]. rewrite firstn_length, Nat.min_l in Hf by exact Hl.
    destruct (i <? len) eqn:Ei; [|discriminate]. apply Nat.ltb_lt in Ei. unfold setSlot, bindM, loadArr, storeArr. cbn [fst]. rewrite Ha.
    match goal with |- context [runActs acts _ ?x] => set (h1 := x) end.
    destruct (IH r len (mkArray (set_nth (a_slots a) i v) (a_cap a) (a_used a)) h1 l') as (H1 & H2 & H3 & H4 & H5).
    + unfold h1. cbn. apply nth_error_set_nth_eq. exact Hr.
    + cbn. rewrite set_nth_length. exact Hl.
    + cbn. rewrite firstn_set_nth by exact Ei. exact Hf.
    + cbn in H4. rewrite skipn_set_nth in H4 by exact Ei. split; auto. split; [rewrite H2; reflexivity|]. split; auto. split; auto.
      intros q Hq. rewrite H5 by auto. unfold h1. cbn. apply nth_error_set_nth_ne. auto.
Qed.

(** A call on a fresh slice. *)
Lemma call_fresh f l cap h : permuting f ->
  let h0 := mkHeap (h_objs h) (h_arrs h ++ [mkArray l cap (length l)]) (h_over h) (h_log h) in
  fst (callH f (RSlice (length (h_arrs h), length l)) l h0) = Ok (fst (f l)) /\
  shuffled h (snd (callH f (RSlice (length (h_arrs h), length l)) l h0)).
Proof.
  intros Hf h0. destruct (Hf l) as (l' & Hl & HP).
  destruct (runActs_slice (snd (f l)) (length (h_arrs h)) (length l) (mkArray l cap (length l)) h0 l') as (H1 & H2 & H3 & H4 & H5).
  - unfold h0. cbn. rewrite nth_error_app2, Nat.sub_diag by lia. reflexivity.
  - cbn. lia.
  - cbn. rewrite firstn_all. exact Hl.
  - unfold callH, bindM. destruct (runActs (snd (f l)) (RSlice (length (h_arrs h), length l)) h0) as [o h1]. cbn [fst snd] in *. subst o. cbn.
    split; auto. split.
    + intros p o Ho. rewrite H2. exists o. split; [exact Ho|apply objShuf_refl].
    + intros r a Ha. exists a. split; [|apply arrShuf_refl]. assert (Hr := nth_error_Some_lt _ _ _ Ha). rewrite H5 by lia.
      unfold h0. cbn. rewrite nth_error_app1; auto.
Qed.

Lemma reduceH_permuting k : forall g f p n d h, permuting f -> rep h p n -> tight h p ->
  shuffled h (snd (reduceH k g f p d h)) /\
  (anyOrder (fun l => fst (f l)) -> fst (reduceH k g f p d h) = reduce k g (fun l => fst (f l)) n d).
Proof.
  induction k as [|k IH]; intros g f p n d h Hf Hr Htt; [split; [apply shuffled_refl|reflexivity]|].
  cbn [reduceH reduce]. destruct Hr as [p a Ho|p a b Ho|p r l Ho Hl|p m da ds Ho Hds].
  - rewrite !(bind_load _ _ _ _ Ho), !bind_slice.
    destruct (call_fresh f [a] 1 h Hf) as [H1 H2]. cbn [length] in H1, H2. cbn [length]. split; [exact H2|]. intros _. exact H1.
  - rewrite !(bind_load _ _ _ _ Ho). destruct (Hf [a; b]) as (l' & Hl & HP).
    destruct (runActs_node (snd (f [a; b])) p a b h l' Ho Hl) as (c & e & -> & H2 & H3 & H4 & H5).
    unfold callH, bindM. destruct (runActs (snd (f [a; b])) (RNode p) h) as [o h1]. cbn [fst snd] in *. subst o. cbn. split; [|reflexivity]. split.
    + intros q o Hq. destruct (Nat.eq_dec q p) as [->|Hne].
      * assert (o = OLeaf2 a b) by congruence. subst o. exists (OLeaf2 c e). auto.
      * exists o. rewrite H5 by auto. split; [exact Hq|apply objShuf_refl].
    + intros r' a' Ha. exists a'. rewrite H3. split; [exact Ha|apply arrShuf_refl].
  - rewrite !(bind_load _ _ _ _ Ho), !(bind_ok _ _ _ _ _ (holds_elems _ _ _ Hl)).
    destruct Hl as (a & Ha & Hu & Hs & Hfi).
    assert (Hlen : length l = a_used a).
    { inversion Htt as [? ? H1|? ? ? H1|? r' a' H1 H2 H3|? ? ? H1 H2]; subst; congruence. }
    destruct (Hf l) as (l' & Hl' & HP).
    destruct (runActs_slice (snd (f l)) r (length l) a h l' Ha) as (H1 & H2 & H3 & H4 & H5); [lia|rewrite Hfi; exact Hl'|].
    unfold callH, bindM. destruct (runActs (snd (f l)) (RSlice (r, length l)) h) as [o h1]. cbn [fst snd] in *. subst o. cbn. split; [|reflexivity]. split.
    + intros q o Hq. exists o. rewrite H2. split; [exact Hq|apply objShuf_refl].
    + intros q a' Ha'. destruct (Nat.eq_dec q r) as [->|Hne].
      * assert (a' = a) by congruence. subst a'. eexists. split; [exact H4|]. split; [reflexivity|]. split; [reflexivity|]. cbn [a_slots a_used a_cap]. split.
        -- rewrite app_length, skipn_length. lia.
        -- rewrite <- Hlen, Hfi. rewrite firstn_app, H3, Nat.sub_diag. rewrite (firstn_all2 l') by lia. cbn. rewrite app_nil_r. exact HP.
      * exists a'. rewrite H5 by auto. split; [exact Ha'|apply arrShuf_refl].
  - rewrite !(bind_load _ _ _ _ Ho). unfold parallel.
    match goal with |- context [par_loop ?x _ _ _] => set (f0 := x) end.
    match goal with |- context [reduceH_loop ?x _ _] => set (F := x) end.
    assert (Hkids : forall c, In (Some c) da -> tight h c).
    { inversion Htt as [? ? X1|? ? ? X1|? r' a' X1 X2 X3|? m' d' X1 X2]; subst; try congruence. assert (d' = da) by congruence. subst. auto. }
    destruct (loop_ok shuffled (anyOrder (fun l => fst (f l))) F (fun i => match child ds i with None => Panic | Some x => reduce k (g_sub i g) (fun l => fst (f l)) x (S d) end) f0
      shuffled_refl shuffled_trans) with (h := h) (order := par_order g d m) (h1 := h) (m := 0%Z) (results := repeat (@None T) fanout) as [A1 A2].
    + intros i s. unfold f0. destruct (child ds i); reflexivity.
    + intros i h1 H1. unfold F. assert (Hi := reps_child _ _ _ i Hds). assert (Hin : forall c, childP da i = Some c -> In (Some c) da).
      { intros c Ec. unfold childP in Ec. rewrite <- Ec. apply nth_In. destruct (Nat.lt_ge_cases i (length da)); auto.
        rewrite nth_overflow in Ec by auto. discriminate. }
      inversion Hi as [E1 E2|c nc Hc E1 E2]; [split; [apply shuffled_refl|reflexivity]|].
      assert (Ht := Hkids c (Hin c (eq_sym E1))). destruct (rep_shuf h h1 H1 c nc Hc Ht) as (n' & Hn' & Hsh).
      destruct (IH (g_sub i g) f c n' (S d) h1 Hf Hn' (tight_shuf _ _ _ H1 Ht)) as [B1 B2]. split; auto.
      intros HC. rewrite B2 by exact HC. symmetry. apply reduce_shuf; auto.
    + apply shuffled_refl.
    + destruct (reduceH_loop F (par_order g d m) (repeat None fanout) h) as [o h1] eqn:El. cbn [fst snd] in A1, A2.
      assert (Hrest : forall results, shuffled h1 (snd ((l <~ fail (foldM (fun acc i => match nth i results None with Some t => Ok (acc ++ [t]) | None => Panic end) [] (mask_indices m)) ;;
            r <~ allocArr (mkArray l fanout (length l)) ;; callH f (RSlice (r, length l)) l) h1)) /\
          fst ((l <~ fail (foldM (fun acc i => match nth i results None with Some t => Ok (acc ++ [t]) | None => Panic end) [] (mask_indices m)) ;;
            r <~ allocArr (mkArray l fanout (length l)) ;; callH f (RSlice (r, length l)) l) h1) =
          (results2 <- foldM (fun acc i => match nth i results None with Some t => Ok (acc ++ [t]) | None => Panic end) [] (mask_indices m) ;; Ok (fst (f results2)))).
      { intros results. unfold fail, bindM. destruct (foldM _ [] (mask_indices m)) as [l| |]; cbn [bind]; try (split; [apply shuffled_refl|reflexivity]).
        unfold allocArr. destruct (call_fresh f l fanout h1 Hf) as [C1 C2]. split; [exact C2|exact C1]. }
      destruct o as [results| |].
      * rewrite !(bind_ok _ _ _ _ _ El). destruct (Hrest results) as [C1 C2]. split; [eapply shuffled_trans; [exact A1|exact C1]|]. intros HC. rewrite C2. specialize (A2 HC).
        destruct (par_loop f0 (par_order g d m) 0 (repeat None fanout)) as [[[ok mm] results']| |]; cbn [bind] in *; try discriminate. injection A2 as ->. reflexivity.
      * rewrite !(bind_panic _ _ _ _ El). split; [exact A1|]. intros HC. specialize (A2 HC).
        destruct (par_loop f0 (par_order g d m) 0 (repeat None fanout)) as [[[ok mm] results']| |]; cbn [bind] in *; try discriminate. reflexivity.
      * rewrite !(bind_fuel _ _ _ _ El). split; [exact A1|]. intros HC. specialize (A2 HC).
        destruct (par_loop f0 (par_order g d m) 0 (repeat None fanout)) as [[[ok mm] results']| |]; cbn [bind] in *; try discriminate. reflexivity.
Qed.

End Reduce.
