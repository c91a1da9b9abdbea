(** * HeapRead: Equal, IsSubsetOf and iterators on the heap, and programs that use them between other commands.

    An iterator keeps pointers into the set and reads the memory when Next and Value are called; other commands may run in between. *)
From Verif Require Import Base Bits Env EnvFacts Node NodeWf Iter Tree TreeFacts.
From Verif Require Import HeapModel HeapFrame HeapOwn HeapRep HeapSim HeapSim2 HeapProg HeapProgSim.
Local Open Scope nat_scope.

Section Read.
Context {E : Env} {T : Type} {K : Key T}.
Notation obj := (obj (T := T)).
Notation heap := (heap (T := T)).
Notation M := (M (T := T)).

(** gauge.go:51-84 [Gauge.Parallel] for closures that report an answer and assign to nothing: it stops at the first false. *)
Fixpoint askH (f : nat -> M bool) (order : list nat) : M bool :=
  match order with
  | [] => ret true
  | i :: order' => b <~ f i ;; if (b : bool) then askH f order' else ret false
  end.

(** SubsetOf: leaf1.go:137-139, leaf2.go:184-187, twig.go:239-247, branch.go:242-259. *)
Fixpoint allGetH (fuel : nat) (l : list T) (p : nat) (depth : nat) : M bool :=
  match l with
  | [] => ret true
  | e :: l' =>
      b <~ has_atH fuel p e depth ;;
      if (b : bool) then allGetH fuel l' p depth else ret false
  end.
Fixpoint subsetOfH (fuel : nat) (g : gauge) (p p2 : nat) (depth : nat) : M bool :=
  match fuel with
  | O => fail Fuel
  | S k =>
      o <~ load p ;;
      match o with
      | OLeaf1 a => has_atH k p2 a depth
      | OLeaf2 x y =>
          b <~ has_atH k p2 x depth ;;
          if (b : bool) then has_atH k p2 y depth else ret false
      | OTwig r len => l <~ elemsOf (r, len) ;; allGetH k l p2 depth
      | OBranch m1 d1 =>
          o2 <~ load p2 ;;
          match o2 with
          | OBranch m2 d2 =>
              askH (fun i =>
                match childP d1 i, childP d2 i with
                | None, _ => ret true
                | Some _, None => ret false
                | Some x, Some y => subsetOfH k (g_sub i g) x y (S depth)
                end) (par_order g depth (N.lor m1 m2))
          | _ => ret false
          end
      end
  end.

(** Equal: leaf1.go:101-104, leaf2.go:134-138, twig.go:172-189, branch.go:159-171. *)
Fixpoint equalH (fuel : nat) (g : gauge) (eq : T -> T -> bool) (p p2 : nat) (depth : nat) : M bool :=
  match fuel with
  | O => fail Fuel
  | S k =>
      o <~ load p ;;
      o2 <~ load p2 ;;
      match o, o2 with
      | OLeaf1 a, OLeaf1 b => ret (eq a b)
      | OLeaf2 a b, OLeaf2 c d => ret ((eq a c && eq b d) || (eq a d && eq b c))%bool
      | OTwig r len, OTwig r2 len2 =>
          if (len =? len2)%nat then
            l <~ elemsOf (r, len) ;;
            l2 <~ elemsOf (r2, len2) ;;
            ret (allIn eq l l2)
          else ret false
      | OBranch m1 d1, OBranch m2 d2 =>
          if (m1 =? m2)%N then
            askH (fun i =>
              match childP d1 i, childP d2 i with
              | Some x, Some y => equalH k (g_sub i g) eq x y (S depth)
              | _, _ => fail Panic
              end) (par_order g depth m1)
          else ret false
      | _, _ => ret false
      end
  end.

(** tree.go:73-82 [Equal] and tree.go:133-141 [SubsetOf]. *)
Definition tH_equal (g : gauge) (eq : T -> T -> bool) (t u : ptree) : M bool :=
  if negb (pt_count t =? pt_count u)%Z then ret false
  else if ((pt_count t =? 0)%Z && (pt_count u =? 0)%Z)%bool then ret true
  else
    match pt_root t, pt_root u with
    | Some p, Some p2 => equalH treeFuel g eq p p2 0
    | Some p, None => ret false
    | None, _ => fail Panic
    end.
Definition tH_subsetOf (g : gauge) (t u : ptree) : M bool :=
  match pt_root t, pt_root u with
  | None, _ => ret true
  | _, None => ret false
  | Some p, Some p2 => subsetOfH treeFuel g p p2 0
  end.

(** ** Iterators *)

(** iterator/slice.go:3-10 and packer_iter.go:10-13. [HCopy l k]: a slice of the iterator's own (leaf1.go:122), at index [k - 1].
    [HLeaf2 p k]: the slice of the array in the leaf at [p] (leaf2.go:165). [HTwig r len k]: the slice of the twig (twig.go:213).
    [HPacker p off i]: [stack[0]] is the slice, from [off] on, of the children of the branch at [p] (packer_iter.go:16).
    Simplification: the buffer of the stacks is not on this heap (IterBuf.v models it; theorem C51_buffer). *)
Inductive hiter : Type :=
| HEmpty
| HCopy (l : list T) (k : nat)
| HLeaf2 (p k : nat)
| HTwig (r len k : nat)
| HPacker (p off : nat) (i : hiter).

(** Iterator: leaf1.go:120-123, leaf2.go:164-166, twig.go:212-214, branch.go:203-205 with packer.go:49-51 and packer_iter.go:15-19. *)
Definition iteratorH (p : nat) : M hiter :=
  o <~ load p ;;
  ret match o with
      | OLeaf1 a => HCopy [a] 0
      | OLeaf2 _ _ => HLeaf2 p 0
      | OTwig r len => HTwig r len 0
      | OBranch _ _ => HPacker p 0 HEmpty
      end.
(** Empty: leaf1.go:97-99, leaf2.go:130-132, twig.go:168-170, branch.go:155-157. *)
Definition isEmptyH (p : nat) : M bool :=
  o <~ load p ;;
  ret match o with OTwig _ O => true | _ => false end.
(** packer_iter.go:26-29: the first child from [off] on that is not empty, and the offset after it. *)
Fixpoint nextChildH (d : list (option nat)) (off : nat) : M (option nat * nat) :=
  match d with
  | [] => ret (None, off)
  | None :: d' => nextChildH d' (S off)
  | Some c :: d' => b <~ isEmptyH c ;; if (b : bool) then nextChildH d' (S off) else ret (Some c, S off)
  end.

(** Next: empty.go:12-14, iterator/slice.go:12-15, packer_iter.go:21-35. *)
Fixpoint nextH (fuel : nat) (it : hiter) : M (bool * hiter) :=
  match fuel with
  | O => fail Fuel
  | S k =>
      match it with
      | HEmpty => ret (false, HEmpty)
      | HCopy l i => ret ((i <? length l), HCopy l (S i))
      | HLeaf2 p i => ret ((i <? 2), HLeaf2 p (S i))
      | HTwig r len i => ret ((i <? len), HTwig r len (S i))
      | HPacker p off i =>
          '(b, i') <~ nextH k i ;;
          if (b : bool) then ret (true, HPacker p off i')
          else
            o <~ load p ;;
            match o with
            | OBranch _ d =>
                '(c, off') <~ nextChildH (skipn off d) off ;;
                match c with
                | None => ret (false, HPacker p off' i')
                | Some c =>
                    j <~ iteratorH c ;;
                    '(b, j') <~ nextH k j ;;
                    ret (b, HPacker p off' j')
                end
            | _ => fail Panic
            end
      end
  end.

(** Value: empty.go:16-18, iterator/slice.go:17-19, packer_iter.go:37-39; the slot is read now. *)
Definition slotH (l : list T) (k : nat) : M T :=
  match k with
  | O => fail Panic
  | S i => match nth_error l i with Some v => ret v | None => fail Panic end
  end.
Fixpoint valueH (it : hiter) : M T :=
  match it with
  | HEmpty => fail Panic
  | HCopy l k => slotH l k
  | HLeaf2 p k => o <~ load p ;; match o with OLeaf2 a b => slotH [a; b] k | _ => fail Panic end
  | HTwig r len k => l <~ elemsOf (r, len) ;; slotH l k
  | HPacker _ _ i => valueH i
  end.

(** tree.go:106-112 [Iterator]. *)
Definition tH_iterator (t : ptree) : M hiter :=
  match pt_root t with
  | None => ret HEmpty
  | Some p => iteratorH p
  end.

(** ** Programs *)

(** Questions about sets and iterators, by number. The answer may be a panic, which the program can recover from.
    Numbers not yet in use stand for the zero Set, which is empty (set.go:14-17), and its iterator. *)
Inductive ask : Type -> Type :=
| AGet (i : nat) (v : T) : ask (res (option T))      (* set.go:190-192 Has, map.go:90-95 Get: tree.go:84-90 *)
| ACount (i : nat) : ask Z                           (* set.go:59-61, map.go:57-59 *)
| AEqual (eq : T -> T -> bool) (i j : nat) : ask (res bool)   (* set.go:173-176, map.go:225-232 *)
| ASubset (i j : nat) : ask (res bool)               (* set.go:185-187 *)
| ARange (i : nat) : ask (res nat)                   (* set.go:64-66, map.go:266-268: a new iterator; the answer is its number *)
| ANext (it : nat) : ask (res bool)
| AValue (it : nat) : ask (res T).

(** A program: after each answer it may go on differently. *)
Inductive session (A : Type) : Type :=
| SEnd (a : A)
| SDo (c : cmd T) (next : session A)
| SAsk {B : Type} (q : ask B) (next : B -> session A).

(** What is known of an answer: elements that come out are valid, if those that went in are. *)
Definition validAnswer (vok : T -> Prop) {B} (q : ask B) : B -> Prop :=
  match q in ask B return B -> Prop with
  | AGet _ _ => fun b => forall v, b = Ok (Some v) -> vok v
  | AValue _ => fun b => forall v, b = Ok v -> vok v
  | _ => fun _ => True
  end.
(** All commands that the program may come to give satisfy [P]. *)
Fixpoint allCmds (vok : T -> Prop) (P : cmd T -> Prop) {A} (s : session A) : Prop :=
  match s with
  | SEnd _ _ => True
  | SDo _ c k => P c /\ allCmds vok P k
  | SAsk _ q k => forall b, validAnswer vok q b -> allCmds vok P (k b)
  end.

(** On the heap. *)
Definition setNo (st : state (T := T)) (i : nat) : ptree := nth i (st_sets st) emptyPT.
Definition iterNo (its : list hiter) (i : nat) : hiter := nth i its HEmpty.
Definition answerH {B} (q : ask B) (st : state) (its : list hiter) : B * heap * list hiter :=
  let h := st_heap st in
  match q with
  | AGet i v => let '(o, h') := tH_get (setNo st i) v h in (o, h', its)
  | ACount i => (pt_count (setNo st i), h, its)
  | AEqual eq i j => let t := setNo st i in let '(o, h') := tH_equal (newGauge (pt_count t)) eq t (setNo st j) h in (o, h', its)
  | ASubset i j => let t := setNo st i in let '(o, h') := tH_subsetOf (newGauge (pt_count t)) t (setNo st j) h in (o, h', its)
  | ARange i =>
      match tH_iterator (setNo st i) h with
      | (Ok it, h') => (Ok (length its), h', its ++ [it])
      | (Panic, h') => (Panic, h', its)
      | (Fuel, h') => (Fuel, h', its)
      end
  | ANext i =>
      match nextH (S treeFuel) (iterNo its i) h with
      | (Ok (b, it), h') => (Ok b, h', set_nth its i it)
      | (Panic, h') => (Panic, h', its)
      | (Fuel, h') => (Fuel, h', its)
      end
  | AValue i => let '(o, h') := valueH (iterNo its i) h in (o, h', its)
  end.
Fixpoint sessionH (grow : nat -> nat -> nat) {A} (s : session A) (st : state) (its : list hiter) : A * (state * list hiter) :=
  match s with
  | SEnd _ a => (a, (st, its))
  | SDo _ c k => sessionH grow k (step grow st c) its
  | SAsk _ q k => let '(b, h', its') := answerH q st its in sessionH grow (k b) (mkState h' (st_sets st) (st_builders st)) its'
  end.

(** On values. *)
Definition answerP {B} (q : ask B) (ps : pstate (T := T)) (its : list (iter T)) : B * list (iter T) :=
  let set i := nth i (ps_sets ps) emptyTree in
  match q with
  | AGet i v => (t_get (set i) v, its)
  | ACount i => (t_count (set i), its)
  | AEqual eq i j => (t_equal (t_gauge (set i)) eq (set i) (set j), its)
  | ASubset i j => (t_subsetOf (t_gauge (set i)) (set i) (set j), its)
  | ARange i => (Ok (length its), its ++ [t_iterator (set i)])
  | ANext i =>
      match inext (S treeFuel) (nth i its IEmpty) with
      | Ok (b, it) => (Ok b, set_nth its i it)
      | Panic => (Panic, its)
      | Fuel => (Fuel, its)
      end
  | AValue i => (ivalue (nth i its IEmpty), its)
  end.
Fixpoint sessionP {A} (s : session A) (ps : pstate (T := T)) (its : list (iter T)) : A * (pstate (T := T) * list (iter T)) :=
  match s with
  | SEnd _ a => (a, (ps, its))
  | SDo _ c k => sessionP k (pstep ps c) its
  | SAsk _ q k => let '(b, its') := answerP q ps its in sessionP (k b) ps its'
  end.

(** One program after another. *)
Fixpoint andThen {A B} (s : session A) (k : A -> session B) : session B :=
  match s with
  | SEnd _ a => k a
  | SDo _ c s' => SDo _ c (andThen s' k)
  | SAsk _ q s' => SAsk _ q (fun b => andThen (s' b) k)
  end.

(** [for i := s.Range(); i.Next(); { v := i.Value(); … }] (as in set.go:70-72), for iterator number [it] and at most [n] calls
    of Next, with a body that keeps a state; what comes out are the values seen, and the last state. *)
Fixpoint forLoop {A} (n it : nat) (body : T -> A -> session A) (seen : list T) (a : A) : session (list T * A) :=
  match n with
  | O => SEnd _ (seen, a)
  | S n' =>
      SAsk _ (ANext it) (fun r =>
        match r with
        | Ok true =>
            SAsk _ (AValue it) (fun v =>
              match v with
              | Ok v => andThen (body v a) (fun a' => forLoop n' it body (seen ++ [v]) a')
              | _ => SEnd _ (seen, a)
              end)
        | _ => SEnd _ (seen, a)
        end)
  end.
Definition rangeLoop {A} (n i : nat) (body : nat -> T -> A -> session A) (a : A) : session (list T * A) :=
  SAsk _ (ARange i) (fun r => match r with Ok it => forLoop n it (body it) [] a | _ => SEnd _ ([], a) end).

(** The program does not call Next on iterator number [it]; other iterators, old and new, it may use. *)
Definition otherNext (it : nat) {B} (q : ask B) : Prop := match q with ANext j => j <> it | _ => True end.
Definition otherIter (it : nat) {B} (q : ask B) : B -> Prop :=
  match q in ask B return B -> Prop with ARange _ => fun b => b <> Ok it | _ => fun _ => True end.
Fixpoint spares (it : nat) {A} (s : session A) : Prop :=
  match s with
  | SEnd _ _ => True
  | SDo _ _ k => spares it k
  | SAsk _ q k => otherNext it q /\ forall b, otherIter it q b -> spares it (k b)
  end.
End Read.

Section ReadFacts.
Context {E : Env} {T : Type} {K : Key T}.
Notation obj := (obj (T := T)).
Notation heap := (heap (T := T)).
Notation M := (M (T := T)).
Notation node := (node T).
Local Opaque maxTreeDepth fanout fb.

(** ** Reading writes nothing *)
Definition quiet {A} (m : M A) : Prop := forall h, snd (m h) = h.
Lemma quiet_ret {A} (a : A) : quiet (ret a). Proof. intros h. reflexivity. Qed.
Lemma quiet_fail {A} (r : res A) : quiet (fail r). Proof. intros h. reflexivity. Qed.
Lemma quiet_bind {A B} (m : M A) (k : A -> M B) : quiet m -> (forall a, quiet (k a)) -> quiet (bindM m k).
Proof.
  intros H1 H2 h. specialize (H1 h). unfold bindM. destruct (m h) as [[a| |] h']; cbn in *; subst; auto. apply H2.
Qed.
Lemma quiet_load p : quiet (load (T := T) p).
Proof. intros h. unfold load. destruct (nth_error (h_objs h) p); reflexivity. Qed.
Lemma quiet_elemsOf sl : quiet (elemsOf (T := T) sl).
Proof.
  unfold elemsOf. apply quiet_bind; [|intros; try apply quiet_ret].
  - intros h. unfold loadArr. destruct (nth_error (h_arrs h) (fst sl)); reflexivity.
Qed.
Local Ltac qt := repeat first
  [ apply quiet_ret | apply quiet_fail | apply quiet_load | apply quiet_elemsOf | apply quiet_bind
  | match goal with
    | |- quiet (match ?x with _ => _ end) => destruct x
    | |- forall _, _ => intro
    | H : _ |- quiet _ => apply H
    end ].
Lemma quiet_getH fuel : forall p v hs, quiet (getH (T := T) fuel p v hs).
Proof. induction fuel as [|k IH]; intros p v hs; cbn [getH]; qt. Qed.
Lemma quiet_has_atH fuel p e d : quiet (has_atH (T := T) fuel p e d).
Proof. unfold has_atH. apply quiet_bind; [apply quiet_getH|]. qt. Qed.
Lemma quiet_askH (f : nat -> M bool) order : (forall i, quiet (f i)) -> quiet (askH f order).
Proof. intros H. induction order as [|i order IH]; cbn [askH]; qt. Qed.
Lemma quiet_allGetH fuel l p d : quiet (allGetH (T := T) fuel l p d).
Proof. induction l as [|e l IH]; cbn [allGetH]; [qt|]. apply quiet_bind; [apply quiet_has_atH|]. qt. Qed.
Lemma quiet_subsetOfH fuel : forall g p p2 d, quiet (subsetOfH (T := T) fuel g p p2 d).
Proof.
  induction fuel as [|k IH]; intros g p p2 d; cbn [subsetOfH]; [qt|]. apply quiet_bind; [apply quiet_load|]. intros [a|x y|r len|m1 d1].
  - apply quiet_has_atH.
  - apply quiet_bind; [apply quiet_has_atH|]. intros []; [apply quiet_has_atH|qt].
  - apply quiet_bind; [apply quiet_elemsOf|]. intros l. apply quiet_allGetH.
  - apply quiet_bind; [apply quiet_load|]. intros [?|? ?|? ?|m2 d2]; try qt. apply quiet_askH. qt.
Qed.
Lemma quiet_equalH fuel : forall g eq p p2 d, quiet (equalH (T := T) fuel g eq p p2 d).
Proof.
  induction fuel as [|k IH]; intros g eq p p2 d; cbn [equalH]; [qt|]. apply quiet_bind; [apply quiet_load|]. intros o.
  apply quiet_bind; [apply quiet_load|]. intros o2.
  destruct o as [a|a b|r len|m1 d1]; destruct o2 as [a'|a' b'|r' len'|m2 d2]; try qt. apply quiet_askH. qt.
Qed.
Lemma quiet_nextChildH d : forall off, quiet (nextChildH (T := T) d off).
Proof.
  induction d as [|[c|] d IH]; intros off; cbn [nextChildH]; unfold isEmptyH; qt.
Qed.
Lemma quiet_iteratorH p : quiet (iteratorH (T := T) p).
Proof. unfold iteratorH. qt. Qed.
Lemma quiet_nextH fuel : forall it, quiet (nextH (T := T) fuel it).
Proof.
  induction fuel as [|k IH]; intros it; cbn [nextH]; [qt|]. destruct it as [|l i|p i|r len i|p off i]; try (qt; fail).
  apply quiet_bind; [apply IH|]. intros [[|] i']; [qt|]. apply quiet_bind; [apply quiet_load|]. intros [?|? ?|? ?|m d]; try (qt; fail).
  apply quiet_bind; [apply quiet_nextChildH|]. intros [[c|] off']; [|qt]. apply quiet_bind; [apply quiet_iteratorH|]. intros j.
  apply quiet_bind; [apply IH|]. qt.
Qed.
Lemma quiet_slotH (l : list T) k : quiet (slotH l k).
Proof. unfold slotH. qt. Qed.
Lemma quiet_valueH it : quiet (valueH (T := T) it).
Proof.
  induction it as [|l i|p i|r len i|p off i IH]; cbn [valueH]; try (qt; fail); try apply quiet_slotH; auto.
  - apply quiet_bind; [apply quiet_load|]. intros [?|? ?|? ?|? ?]; try (qt; fail). apply quiet_slotH.
  - apply quiet_bind; [apply quiet_elemsOf|]. intros. apply quiet_slotH.
Qed.

Theorem answer_quiet {B} (q : ask (T := T) B) st its : snd (fst (answerH q st its)) = st_heap st.
Proof.
  destruct q as [i v|i|eq i j|i j|i|i|i]; unfold answerH.
  - assert (H : quiet (tH_get (setNo st i) v)) by (unfold tH_get; destruct (pt_root _); [apply quiet_getH|qt]).
    specialize (H (st_heap st)). destruct (tH_get _ _ _); auto.
  - reflexivity.
  - match goal with |- context [tH_equal ?g ?e ?t ?u] => assert (H : quiet (tH_equal g e t u)) end.
    { unfold tH_equal. destruct (negb _); [qt|]. destruct (_ && _)%bool; [qt|]. destruct (pt_root _); [|qt]. destruct (pt_root _); [apply quiet_equalH|qt]. }
    specialize (H (st_heap st)). destruct (tH_equal _ _ _ _); auto.
  - match goal with |- context [tH_subsetOf ?g ?t ?u] => assert (H : quiet (tH_subsetOf g t u)) end.
    { unfold tH_subsetOf. destruct (pt_root _); [|qt]. destruct (pt_root _); [apply quiet_subsetOfH|qt]. }
    specialize (H (st_heap st)). destruct (tH_subsetOf _ _ _); auto.
  - assert (H : quiet (tH_iterator (setNo st i))) by (unfold tH_iterator; destruct (pt_root _); [apply quiet_iteratorH|qt]).
    specialize (H (st_heap st)). destruct (tH_iterator _ _) as [[it| |] h]; auto.
  - pose proof (quiet_nextH (S treeFuel) (iterNo its i) (st_heap st)) as H. destruct (nextH _ _ _) as [[[b it]| |] h]; auto.
  - pose proof (quiet_valueH (iterNo its i) (st_heap st)) as H. destruct (valueH _ _) as [o h]; auto.
Qed.

(** ** Reading what represents a node *)
Lemma reads_bind {A B} h (m : M A) r (k : A -> M B) (k' : A -> res B) :
  m h = (r, h) -> (forall a, r = Ok a -> k a h = (k' a, h)) -> bindM m k h = (bind r k', h).
Proof. intros H1 H2. unfold bindM. rewrite H1. destruct r; cbn; auto. Qed.

Lemma askH_rep h (f : nat -> M bool) (f' : nat -> unit -> res (bool * Z * unit)) :
  (forall i, exists r, f i h = (r, h) /\ f' i tt = (b <- r ;; Ok (b, 0%Z, tt))) ->
  forall order m, askH f order h = ('(ok, _, _) <- par_loop f' order m tt ;; Ok ok, h).
Proof.
  intros H. induction order as [|i order IH]; intros m; cbn [askH par_loop bind]; [reflexivity|].
  destruct (H i) as (r & H1 & H2). rewrite H2. unfold bindM. rewrite H1. destruct r as [[|]| |]; cbn [bind]; auto.
Qed.

Lemma allGetH_rep fuel h p n d l : rep h p n -> allGetH fuel l p d h = (allGet fuel l n d, h).
Proof.
  intros H. induction l as [|e l IH]; [reflexivity|]. cbn [allGetH allGet]. apply reads_bind; [apply has_atH_rep; auto|].
  intros [|] _; auto.
Qed.

Lemma subsetOfH_rep fuel : forall h g p p2 n n2 d, rep h p n -> rep h p2 n2 -> subsetOfH fuel g p p2 d h = (subsetOf fuel g n n2 d, h).
Proof.
  induction fuel as [|k IH]; intros h g p p2 n n2 d H1 H2; [reflexivity|]. cbn [subsetOfH subsetOf].
  inversion H1 as [p0 a Hp|p0 a b Hp|p0 r l Hp Hl|p0 m1 d1 ds1 Hp Hds]; subst; rewrite (bindM_ok _ _ _ _ _ (load_ok _ _ _ Hp)).
  - apply has_atH_rep; auto.
  - apply reads_bind; [apply has_atH_rep; auto|]. intros [|] _; [apply has_atH_rep; auto|reflexivity].
  - rewrite (bindM_ok _ _ _ _ _ (elemsOf_holds _ _ _ Hl)). apply allGetH_rep; auto.
  - inversion H2 as [q0 a' Hq|q0 a' b' Hq|q0 r' l' Hq Hl'|q0 m2 d2 ds2 Hq Hds2]; subst;
      rewrite (bindM_ok _ _ _ _ _ (load_ok _ _ _ Hq)); try reflexivity.
    unfold parallel. apply askH_rep. intros i.
    destruct (reps_child _ _ _ i Hds) as [|x nx Hx]; [exists (Ok true); auto|].
    destruct (reps_child _ _ _ i Hds2) as [|y ny Hy]; [exists (Ok false); auto|].
    exists (subsetOf k (g_sub i g) nx ny (S d)). split; [apply IH; auto|]. destruct (subsetOf _ _ _ _ _); reflexivity.
Qed.

Lemma equalH_rep fuel : forall (h : heap) g eq p p2 (n n2 : node) d, rep h p n -> rep h p2 n2 -> equalH fuel g eq p p2 d h = (equal fuel g eq n n2 d, h).
Proof.
  induction fuel as [|k IH]; intros h g eq p p2 n n2 d H1 H2; [reflexivity|]. cbn [equalH equal].
  inversion H1 as [p0 a Hp|p0 a b Hp|p0 r l Hp Hl|p0 m1 d1 ds1 Hp Hds]; subst; rewrite (bindM_ok _ _ _ _ _ (load_ok _ _ _ Hp));
    inversion H2 as [q0 a' Hq|q0 a' b' Hq|q0 r' l' Hq Hl'|q0 m2 d2 ds2 Hq Hds2]; subst;
      rewrite (bindM_ok _ _ _ _ _ (load_ok _ _ _ Hq)); try reflexivity.
  - destruct (length l =? length l'); [|reflexivity].
    rewrite (bindM_ok _ _ _ _ _ (elemsOf_holds _ _ _ Hl)), (bindM_ok _ _ _ _ _ (elemsOf_holds _ _ _ Hl')). reflexivity.
  - destruct (m1 =? m2)%N; [|reflexivity]. unfold parallel. apply askH_rep. intros i.
    destruct (reps_child _ _ _ i Hds) as [|x nx Hx]; [exists Panic; auto|].
    destruct (reps_child _ _ _ i Hds2) as [|y ny Hy]; [exists Panic; auto|].
    exists (equal k (g_sub i g) eq nx ny (S d)). split; [apply IH; auto|]. destruct (equal _ _ _ _ _ _); reflexivity.
Qed.

(** ** Iterators *)
Inductive irep (h : heap) : hiter (T := T) -> iter T -> Prop :=
| irep_empty : irep h HEmpty IEmpty
| irep_copy l k : irep h (HCopy l k) (ISlice l k)
| irep_leaf2 p a b k : nth_error (h_objs h) p = Some (OLeaf2 a b) -> irep h (HLeaf2 p k) (ISlice [a; b] k)
| irep_twig r l k : holds h r l -> irep h (HTwig r (length l) k) (ISlice l k)
| irep_packer p m d ds off i i' : nth_error (h_objs h) p = Some (OBranch m d) -> reps h d ds -> irep h i i' ->
    irep h (HPacker p off i) (IPacker (skipn off ds) i').

Lemma iteratorH_rep (h : heap) p (n : node) : rep h p n -> exists it, iteratorH p h = (Ok it, h) /\ irep h it (iterator n).
Proof.
  intros H. unfold iteratorH.
  inversion H as [p0 a Hp|p0 a b Hp|p0 r l Hp Hl|p0 m1 d1 ds1 Hp Hds]; subst; rewrite (bindM_ok _ _ _ _ _ (load_ok _ _ _ Hp));
    eexists; (split; [reflexivity|]); cbn [iterator].
  - constructor.
  - econstructor; eauto.
  - constructor; auto.
  - change ds1 with (skipn 0 ds1). econstructor; eauto. constructor.
Qed.

Lemma isEmptyH_rep (h : heap) p (n : node) : rep h p n -> isEmptyH p h = (Ok (isEmpty n), h).
Proof.
  intros H. unfold isEmptyH. inversion H as [p0 a Hp|p0 a b Hp|p0 r l Hp Hl|p0 m1 d1 ds1 Hp Hds]; subst;
    rewrite (bindM_ok _ _ _ _ _ (load_ok _ _ _ Hp)); try reflexivity. destruct l; reflexivity.
Qed.

Lemma skipn_S {A} off : forall (l : list A) x l', skipn off l = x :: l' -> skipn (S off) l = l'.
Proof. induction off as [|off IH]; intros [|y l] x l' H; cbn in *; try discriminate; [congruence|]. eapply IH; eauto. Qed.

(** The offset moves as the children are dropped. *)
Lemma nextChildH_rep (h : heap) d (ds : list (option node)) : reps h d ds -> forall off dd, skipn off dd = ds ->
  match nextChild ds with
  | None => exists off', nextChildH d off h = (Ok (None, off'), h) /\ skipn off' dd = []
  | Some (n, ds') => exists c off', nextChildH d off h = (Ok (Some c, off'), h) /\ skipn off' dd = ds' /\ rep h c n
  end.
Proof.
  induction 1 as [|d ds H IH|c n d ds Hc H IH]; intros off dd Ho; cbn [nextChild nextChildH].
  - exists off. auto.
  - apply IH. eapply skipn_S; eauto.
  - rewrite (bindM_ok _ _ _ _ _ (isEmptyH_rep _ _ _ Hc)). destruct (isEmpty n); [apply IH; eapply skipn_S; eauto|].
    exists c, (S off). split; auto. split; auto. eapply skipn_S; eauto.
Qed.

Lemma reps_skipn (h : heap) off : forall d (ds : list (option node)), reps h d ds -> reps h (skipn off d) (skipn off ds).
Proof. induction off as [|off IH]; intros d ds H; [exact H|]. destruct H; cbn; [constructor|auto|auto]. Qed.

Lemma nextH_rep fuel : forall (h : heap) it it', irep h it it' ->
  match inext fuel it' with
  | Ok (b, j') => exists j, nextH fuel it h = (Ok (b, j), h) /\ irep h j j'
  | Panic => nextH fuel it h = (Panic, h)
  | Fuel => nextH fuel it h = (Fuel, h)
  end.
Proof.
  induction fuel as [|k IH]; intros h it it' H; [reflexivity|].
  destruct H as [|l i|p a b i Hp|r l i Hl|p m d ds off i i' Hp Hds Hi]; cbn [inext nextH].
  - eexists. split; [reflexivity|]. constructor.
  - eexists. split; [reflexivity|]. constructor.
  - eexists. split; [reflexivity|]. econstructor; eauto.
  - eexists. split; [reflexivity|]. constructor; auto.
  - pose proof (IH h i i' Hi) as H1. destruct (inext k i') as [[b j']| |]; cbn [bind].
    + destruct H1 as (j & H1 & Hj). rewrite (bindM_ok _ _ _ _ _ H1). destruct b.
      * eexists. split; [reflexivity|]. econstructor; eauto.
      * rewrite (bindM_ok _ _ _ _ _ (load_ok _ _ _ Hp)).
        pose proof (nextChildH_rep h _ _ (reps_skipn h off d ds Hds) off ds eq_refl) as H2.
        destruct (nextChild (skipn off ds)) as [[n ds']|].
        -- destruct H2 as (c & off' & H2 & H3 & Hc). rewrite (bindM_ok _ _ _ _ _ H2). cbv beta iota.
           destruct (iteratorH_rep h c n Hc) as (x & H4 & Hx). rewrite (bindM_ok _ _ _ _ _ H4).
           pose proof (IH h x (iterator n) Hx) as H5. destruct (inext k (iterator n)) as [[b' y']| |]; cbn [bind].
           ++ destruct H5 as (y & H5 & Hy). rewrite (bindM_ok _ _ _ _ _ H5). eexists. split; [reflexivity|].
              rewrite <- H3. econstructor; eauto.
           ++ rewrite (bindM_panic _ _ _ _ H5). reflexivity.
           ++ rewrite (bindM_fuel _ _ _ _ H5). reflexivity.
        -- destruct H2 as (off' & H2 & H3). rewrite (bindM_ok _ _ _ _ _ H2). cbv beta iota. eexists. split; [reflexivity|].
           rewrite <- H3. econstructor; eauto.
    + rewrite (bindM_panic _ _ _ _ H1). reflexivity.
    + rewrite (bindM_fuel _ _ _ _ H1). reflexivity.
Qed.

Lemma valueH_rep h it it' : irep h it it' -> valueH it h = (ivalue it', h).
Proof.
  assert (HS : forall (l : list T) k, slotH l k h = (ivalue (ISlice l k), h)).
  { intros l [|k]; cbn [slotH ivalue]; [reflexivity|]. destruct (nth_error l k); reflexivity. }
  induction 1 as [|l i|p a b i Hp|r l i Hl|p m d ds off i i' Hp Hds Hi IH]; cbn [valueH ivalue]; auto.
  - apply (HS l i).
  - rewrite (bindM_ok _ _ _ _ _ (load_ok _ _ _ Hp)). apply (HS [a; b] i).
  - rewrite (bindM_ok _ _ _ _ _ (elemsOf_holds _ _ _ Hl)). apply (HS l i).
Qed.

(** ** The memory of an iterator *)
Fixpoint inside (P Q : nat -> Prop) (it : hiter (T := T)) : Prop :=
  match it with
  | HEmpty | HCopy _ _ => True
  | HLeaf2 p _ => P p
  | HTwig r _ _ => Q r
  | HPacker p _ i => P p /\ inside P Q i
  end.
(** All that the iterator points to is reachable from the set. *)
Definition belongs (h : heap) (t : ptree) (it : hiter) : Prop :=
  forall P Q : nat -> Prop, closed P Q h -> optP P (pt_root t) -> inside P Q it.

Lemma inside_imp (P Q P' Q' : nat -> Prop) it : (forall p, P p -> P' p) -> (forall r, Q r -> Q' r) -> inside P Q it -> inside P' Q' it.
Proof. intros H1 H2. induction it; cbn; auto. intros []. auto. Qed.

Lemma irep_kept h h' it it' : kept h h' -> irep h it it' -> irep h' it it'.
Proof.
  intros Hk. induction 1; try (econstructor; eauto using kept_obj, reps_kept; fail). constructor. eapply holds_kept; eauto.
Qed.
Lemma belongs_kept h h' t it : kept h h' -> belongs h t it -> belongs h' t it.
Proof.
  intros Hk H P Q Hc Hr. apply H; auto. intros p o Hp Ho. apply (Hc p o Hp). eapply kept_obj; eauto.
Qed.

Lemma irep_region (P Q : nat -> Prop) (h h' : heap) it it' : closed P Q h ->
  (forall p, P p -> nth_error (h_objs h') p = nth_error (h_objs h) p) ->
  (forall r, Q r -> nth_error (h_arrs h') r = nth_error (h_arrs h) r) ->
  irep h it it' -> inside P Q it -> irep h' it it'.
Proof.
  intros Hc H1 H2. induction 1 as [|l i|p a b i Hp|r l i Hl|p m d ds off i i' Hp Hds Hi IH]; cbn; intros Hin; try (constructor; fail).
  - econstructor. rewrite H1; eauto.
  - constructor. destruct Hl as (a & Ha & Hl). exists a. rewrite H2; auto.
  - destruct Hin as [Hin1 Hin2]. econstructor; [rewrite H1; eauto| |auto].
    apply (proj2 (rep_region_mut P Q h h' Hc H1 H2) d ds Hds). exact (Hc p _ Hin1 Hp).
Qed.
Lemma irep_stable h h' t it it' : stable h h' t -> belongs h t it -> irep h it it' -> irep h' it it'.
Proof.
  intros (P & Q & Hr & Hc & H1 & H2 & _) Hb Hi. eapply (irep_region P Q h h'); eauto.
Qed.
Lemma belongs_stable h h' t it : stable h h' t -> belongs h t it -> belongs h' t it.
Proof.
  intros (P0 & Q0 & Hr0 & Hc0 & H1 & H2 & _) Hb P Q Hc Hr.
  assert (Hi : inside (fun p => P p /\ P0 p) (fun r => Q r /\ Q0 r) it).
  { apply Hb.
    - intros p o [Hp Hp0] Ho. pose proof (Hc0 p o Hp0 Ho) as A1. assert (Ho' := Ho). rewrite <- H1 in Ho' by auto.
      pose proof (Hc p o Hp Ho') as A2. destruct o as [a|a b|r len|m d]; cbn in *; auto.
    - intros p Hp. split; auto. }
  eapply inside_imp; [| |exact Hi]; cbv beta; tauto.
Qed.

Lemma belongs_iteratorH h t p n it : pt_root t = Some p -> rep h p n -> iteratorH p h = (Ok it, h) -> belongs h t it.
Proof.
  intros Hr Hn Hi P Q Hc Ho. specialize (Ho p Hr). revert Hi. unfold iteratorH.
  inversion Hn as [p0 a Hp|p0 a b Hp|p0 r l Hp Hl|p0 m1 d1 ds1 Hp Hds]; subst; rewrite (bindM_ok _ _ _ _ _ (load_ok _ _ _ Hp));
    intros [= <-]; cbn; auto. exact (Hc p _ Ho Hp).
Qed.

Lemma nextChildH_in (h : heap) d : forall off c off', nextChildH d off h = (Ok (Some c, off'), h) -> In (Some c) d.
Proof.
  induction d as [|[x|] d IH]; intros off c off' H; cbn [nextChildH] in H; [discriminate| |right; eauto].
  unfold bindM in H. pose proof (fun h => quiet_bind (load (T := T) x) (fun o => ret match o with OTwig _ O => true | _ => false end) (quiet_load x) (fun o => quiet_ret _) h) as Hq.
  specialize (Hq h). fold (isEmptyH (T := T) x) in Hq. destruct (isEmptyH x h) as [[b| |] h1]; try discriminate. cbn [snd] in Hq. subst h1.
  destruct b; [right; eauto|]. injection H as <- <-. left. auto.
Qed.

Lemma inside_iteratorH (P Q : nat -> Prop) (h : heap) p it : closed P Q h -> P p -> fst (iteratorH p h) = Ok it -> inside P Q it.
Proof.
  intros Hc Hp. unfold iteratorH, bindM, load. destruct (nth_error (h_objs h) p) as [o|] eqn:Ho; cbn; [|discriminate].
  intros [= <-]. pose proof (Hc p o Hp Ho) as H. destruct o; cbn in *; auto.
Qed.
Lemma inside_nextH (P Q : nat -> Prop) fuel : forall (h : heap) it b it', closed P Q h -> inside P Q it ->
  fst (nextH fuel it h) = Ok (b, it') -> inside P Q it'.
Proof.
  induction fuel as [|k IH]; intros h it b it' Hc Hin H; [discriminate|]. cbn [nextH] in H.
  destruct it as [|l i|p i|r len i|p off i]; cbn in H; try (injection H as <- <-; auto; fail).
  destruct Hin as [Hp Hi]. unfold bindM in H. pose proof (quiet_nextH k i h) as Hq. pose proof (IH h i) as IH1.
  destruct (nextH k i h) as [[[b1 i1]| |] h1]; cbn [fst snd] in *; try discriminate. subst h1.
  specialize (IH1 b1 i1 Hc Hi eq_refl). destruct b1; [cbn in H; injection H as <- <-; cbn; auto|].
  unfold load in H. destruct (nth_error (h_objs h) p) as [[?|? ?|? ?|m d]|] eqn:Ho; cbn in H; try discriminate.
  pose proof (quiet_nextChildH (skipn off d) off h) as Hq. pose proof (nextChildH_in h (skipn off d) off) as Hc'.
  destruct (nextChildH (skipn off d) off h) as [[[[c|] off']| |] h2]; cbn [fst snd] in *; try discriminate; subst h2.
  - specialize (Hc' c off' eq_refl). assert (HP : P c).
    { apply (Hc p _ Hp Ho). rewrite <- (firstn_skipn off d). apply in_or_app. auto. }
    pose proof (quiet_iteratorH c h) as Hq2. pose proof (inside_iteratorH P Q h c) as Hj.
    destruct (iteratorH c h) as [[j| |] h3]; cbn [fst snd] in *; try discriminate. subst h3. specialize (Hj j Hc HP eq_refl).
    pose proof (quiet_nextH k j h) as Hq3. pose proof (IH h j) as IH2.
    destruct (nextH k j h) as [[[b2 j2]| |] h4]; cbn [fst snd] in *; try discriminate. subst h4. injection H as <- <-. cbn. split; auto.
    apply (IH2 b2 j2); auto.
  - cbn in H. injection H as <- <-. cbn. auto.
Qed.
Lemma belongs_nextH h t it fuel b it' : belongs h t it -> fst (nextH fuel it h) = Ok (b, it') -> belongs h t it'.
Proof. intros H1 H2 P Q Hc Hr. eapply inside_nextH; eauto. Qed.
End ReadFacts.
