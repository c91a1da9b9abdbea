(** * HeapModel: the trie operations on a heap of mutable objects.

    Node.v treats nodes as values. Here nodes are objects reached through pointers, twigs hold slices
    of arrays with spare capacity, builders change their nodes in place, and sets share nodes. The
    operations follow the Go code assignment by assignment.

    Simplifications: memory is never reclaimed; elements are immutable values; goroutines of
    [Gauge.Parallel] run one after the other, in any order (Concurrency.v treats their interleaving);
    reading a slice in a [for range] loop happens before the loop body runs (none of the loops here
    writes to the slice it ranges over, except right before leaving the loop). *)
From Verif Require Import Base Bits Env EnvFacts Node.
Local Open Scope Z_scope.

Section Heap.
Context {E : Env} {T : Type} {K : Key T}.
(** The capacity [append] chooses for a new array: [grow c n] when an array of capacity [c] is too small for
    [n] elements. Any function is allowed (a result below [n] counts as [n]). *)
Context (grow : nat -> nat -> nat).

(** leaf1.go:12-14, leaf2.go:12-14, twig.go:12-14 (the slice [data] is an array and a length), branch.go:23-25 with
    packer.go:9-12 inlined. Pointers are indices into the list of objects, [None] is nil. *)
Inductive obj : Type :=
| OLeaf1 (a : T)
| OLeaf2 (a b : T)
| OTwig (arr len : nat)
| OBranch (mask : N) (data : list (option nat)).

(** The array behind a slice: the values of the slots written so far, the capacity, and (a ghost field, never
    read by the operations) the number of slots that some twig has claimed. Slots beyond the written ones hold
    the zero value, which is never read. *)
Record array := mkArray { a_slots : list T; a_cap : nat; a_used : nat }.

(** What an assignment writes to: an object (in a branch, one of its fields), or a slot of an array. [WGhost r]: nothing
    is written, only the ghost field of an array changes. *)
Inductive loc : Type := WObj (p : nat) | WSlot (r i : nat) | WGhost (r : nat).

(** Two ghost fields, never read by the operations: [h_over] counts how often [append] has written to a slot that was
    already claimed; [h_log] lists the locations written so far, without the initialisation of new objects and arrays. *)
Record heap := mkHeap { h_objs : list obj; h_arrs : list array; h_over : nat; h_log : list loc }.
Definition emptyHeap : heap := mkHeap [] [] 0 [].

(** A computation that may panic; its changes to the heap remain if it does. *)
Definition M (A : Type) : Type := heap -> res A * heap.
Definition ret {A} (a : A) : M A := fun h => (Ok a, h).
Definition fail {A} (r : res A) : M A := fun h => (r, h).
Definition bindM {A B} (m : M A) (k : A -> M B) : M B := fun h =>
  match m h with
  | (Ok a, h') => k a h'
  | (Panic, h') => (Panic, h')
  | (Fuel, h') => (Fuel, h')
  end.

End Heap.

Notation "x <~ m ;; k" := (bindM m (fun x => k))
  (at level 61, m at next level, right associativity).
Notation "' p <~ m ;; k" := (bindM m (fun x => match x with p => k end))
  (at level 61, p pattern, m at next level, right associativity).

Section HeapOps.
Context {E : Env} {T : Type} {K : Key T} (grow : nat -> nat -> nat).
Notation obj := (obj (T := T)).
Notation heap := (heap (T := T)).
Notation array := (array (T := T)).
Notation M := (M (T := T)).

(** A Go [for range] loop whose body may panic. *)
Fixpoint foldMM {A S} (f : S -> A -> M S) (s : S) (l : list A) : M S :=
  match l with
  | [] => ret s
  | a :: l' => s' <~ f s a ;; foldMM f s' l'
  end.

(** [&leaf1[T]{...}] etc. *)
Definition alloc (o : obj) : M nat := fun h =>
  (Ok (length (h_objs h)), mkHeap (h_objs h ++ [o]) (h_arrs h) (h_over h) (h_log h)).
(** Dereferencing a pointer. (A dangling pointer cannot occur in Go; it panics here.) *)
Definition load (p : nat) : M obj := fun h =>
  match nth_error (h_objs h) p with Some o => (Ok o, h) | None => (Panic, h) end.
Definition store (p : nat) (o : obj) : M unit := fun h =>
  (Ok tt, mkHeap (set_nth (h_objs h) p o) (h_arrs h) (h_over h) (h_log h ++ [WObj p])).
Definition allocArr (a : array) : M nat := fun h =>
  (Ok (length (h_arrs h)), mkHeap (h_objs h) (h_arrs h ++ [a]) (h_over h) (h_log h)).
Definition loadArr (r : nat) : M array := fun h =>
  match nth_error (h_arrs h) r with Some a => (Ok a, h) | None => (Panic, h) end.
(** An assignment to slot [i]; [None] if only the ghost count of claimed slots changes. *)
Definition slotOf (r : nat) (i : option nat) : loc := match i with Some i => WSlot r i | None => WGhost r end.
Definition storeArr (r : nat) (i : option nat) (a : array) : M unit := fun h =>
  (Ok tt, mkHeap (h_objs h) (set_nth (h_arrs h) r a) (h_over h) (h_log h ++ [slotOf r i])).
(** Ghost. *)
Definition countOver (n : nat) : M unit := fun h =>
  (Ok tt, mkHeap (h_objs h) (h_arrs h) (h_over h + n) (h_log h)).

(** A slice: array and length (slices of this package all start at slot 0). *)
Definition slice : Type := (nat * nat)%type.

(** The elements of a slice. *)
Definition elemsOf (sl : slice) : M (list T) :=
  a <~ loadArr (fst sl) ;; ret (firstn (snd sl) (a_slots a)).

(** The slice of a variadic call with the given arguments, or [append(make([]T, 0, n), l...)] with [n = len(l)]. *)
Definition newSlice (data : list T) : M slice :=
  r <~ allocArr (mkArray data (length data) (length data)) ;; ret (r, length data).

(** [sl[i] = v]. *)
Definition setSlot (sl : slice) (i : nat) (v : T) : M unit :=
  a <~ loadArr (fst sl) ;;
  storeArr (fst sl) (Some i) (mkArray (set_nth (a_slots a) i v) (a_cap a) (a_used a)).

(** The builtin [append(sl, v)]. With spare capacity it writes into the array of [sl]. *)
Definition append (sl : slice) (v : T) : M slice :=
  let '(r, len) := sl in
  a <~ loadArr r ;;
  if (len <? a_cap a)%nat then
    _ <~ countOver (if (len <? a_used a)%nat then 1 else 0)%nat ;;
    _ <~ storeArr r (Some len) (mkArray (firstn len (a_slots a) ++ v :: skipn (S len) (a_slots a)) (a_cap a)
                             (Nat.max (a_used a) (S len))) ;;
    ret (r, S len)
  else
    r' <~ allocArr (mkArray (firstn len (a_slots a) ++ [v]) (Nat.max (S len) (grow (a_cap a) (S len))) (S len)) ;;
    ret (r', S len).

(** twig.go:16-18 [newTwig]. *)
Definition newTwigH (sl : slice) : M nat := alloc (OTwig (fst sl) (snd sl)).

(** [p.data[i]]. *)
Definition childP (data : list (option nat)) (i : nat) : option nat := nth i data None.
Definition emptyDataP : list (option nat) := repeat None fanout.
(** packer.go:28-36 [SetChild], on a copy of the packer. *)
Definition setChildP (p : N * list (option nat)) (i : nat) (n : option nat) : N * list (option nat) :=
  match n with
  | None => (N.ldiff (fst p) (newMasker i), set_nth (snd p) i n)
  | Some _ => (N.lor (fst p) (newMasker i), set_nth (snd p) i n)
  end.
(** packer.go:38-41 [SetNonNilChild]. *)
Definition setNonNilChildP (p : N * list (option nat)) (i : nat) (n : option nat) : N * list (option nat) :=
  (N.lor (fst p) (newMasker i), set_nth (snd p) i n).
(** packer.go:53-61 [updateMask]. *)
Fixpoint updateMaskP_from (i : nat) (data : list (option nat)) (mask : N) : N :=
  match data with
  | [] => mask
  | None :: data' => updateMaskP_from (S i) data' mask
  | Some _ :: data' => updateMaskP_from (S i) data' (N.lor mask (newMasker i))
  end.
Definition updateMaskP (data : list (option nat)) : N := updateMaskP_from 0 data 0.

(** branch.go:27-33 [newBranch]. *)
Definition newBranchH (p : N * list (option nat)) : M nat := alloc (OBranch (fst p) (snd p)).
Definition emptyBranchH : M nat := newBranchH (0%N, emptyDataP).

(** branch.go:35-45 [newBranchFrom], given the [AddFast] it calls. *)
Definition newBranchFromH_with (addFast : nat -> T -> nat -> N -> M (nat * Z)) (depth : nat) (sl : slice) : M nat :=
  if (maxTreeDepth <=? depth)%nat then newTwigH sl
  else
    data <~ elemsOf sl ;;
    b <~ emptyBranchH ;;
    _ <~ foldMM (fun _ e => addFast b e depth (newHasher e depth)) (b, 0) data ;;
    ret b.

(** The index of the first element with property [q]: the loops [for i, e := range l.data { if eq(e, v) ... }]. *)
Definition indexOf (q : T -> bool) (l : list T) : option nat := findIndex q l.

(** Add: leaf1.go:47-53, leaf2.go:38-49, twig.go:41-63, branch.go:47-59 with [eq = args.eq], [f = args.f];
    AddFast: leaf1.go:55-61, leaf2.go:51-62, twig.go:65-87, branch.go:61-73 with [eq = value.Equal] and [f] returning
    its second argument. The two differ in nothing else; both use AddFast in [newBranchFrom]. *)
Fixpoint addH (fuel : nat) (eq : T -> T -> bool) (f : T -> T -> T) (p : nat) (v : T) (depth : nat) (h : N)
    {struct fuel} : M (nat * Z) :=
  match fuel with
  | O => fail Fuel
  | S k =>
      o <~ load p ;;
      match o with
      | OLeaf1 a =>
          if eq a v then _ <~ store p (OLeaf1 (f a v)) ;; ret (p, 1)
          else q <~ alloc (OLeaf2 a v) ;; ret (q, 0)
      | OLeaf2 a b =>
          if eq a v then _ <~ store p (OLeaf2 (f a v) b) ;; ret (p, 1)
          else if eq b v then _ <~ store p (OLeaf2 a (f b v)) ;; ret (p, 1)
          else
            sl <~ newSlice [a; b; v] ;;
            q <~ newBranchFromH_with (addH k veq (fun _ b => b)) depth sl ;;
            ret (q, 0)
      | OTwig r len =>
          l <~ elemsOf (r, len) ;;
          match indexOf (fun e => eq e v) l with
          | Some i =>
              _ <~ setSlot (r, len) i (f (nth i l v) v) ;;
              ret (p, 1)
          | None =>
              a <~ loadArr r ;;
              if ((len <? a_cap a) || (maxTreeDepth <=? depth))%nat then
                sl <~ append (r, len) v ;;
                _ <~ store p (OTwig (fst sl) (snd sl)) ;;
                ret (p, 0)
              else
                b <~ emptyBranchH ;;
                m <~ foldMM (fun m e => '(_, m') <~ addH k eq f b e depth (newHasher e depth) ;; ret (m + m')) 0 l ;;
                '(_, m') <~ addH k eq f b v depth h ;;
                ret (b, m + m')
          end
      | OBranch mask data =>
          let i := h_hash h in
          match childP data i with
          | None =>
              q <~ alloc (OLeaf1 v) ;;
              let pk := setNonNilChildP (mask, data) i (Some q) in
              _ <~ store p (OBranch (fst pk) (snd pk)) ;;
              ret (p, 0)
          | Some c =>
              '(q, m) <~ addH k eq f c v (S depth) (h_next h) ;;
              let pk := setNonNilChildP (mask, data) i (Some q) in
              _ <~ store p (OBranch (fst pk) (snd pk)) ;;
              ret (p, m)
          end
      end
  end.

Definition addFastH (fuel : nat) : nat -> T -> nat -> N -> M (nat * Z) := addH fuel veq (fun _ b => b).

(** branch.go:35-45 [newBranchFrom]. *)
Definition newBranchFromH (fuel : nat) (depth : nat) (sl : slice) : M nat := newBranchFromH_with (addFastH fuel) depth sl.

(** AppendTo: leaf1.go:83-88, leaf2.go:108-113, twig.go:148-153, branch.go:75-84, to a buffer of capacity [cap] on the
    stack; [None] is the nil slice. *)
Fixpoint appendToH (fuel : nat) (cap : nat) (p : nat) (dest : list T) : M (option (list T)) :=
  match fuel with
  | O => fail Fuel
  | S k =>
      o <~ load p ;;
      match o with
      | OLeaf1 a => ret (if (cap <? length dest + 1)%nat then None else Some (dest ++ [a]))
      | OLeaf2 a b => ret (if (cap <? length dest + 2)%nat then None else Some (dest ++ [a; b]))
      | OTwig r len =>
          l <~ elemsOf (r, len) ;;
          ret (if (cap <? length dest + length l)%nat then None else Some (dest ++ l))
      | OBranch _ data => appendAllH k cap data dest
      end
  end
(** The loop of branch.go:76-82. *)
with appendAllH (fuel : nat) (cap : nat) (data : list (option nat)) (dest : list T) : M (option (list T)) :=
  match fuel with
  | O => fail Fuel
  | S k =>
      match data with
      | [] => ret (Some dest)
      | None :: data' => appendAllH k cap data' dest
      | Some c :: data' =>
          d <~ appendToH k cap c dest ;;
          match d with
          | None => ret None
          | Some dest' => appendAllH k cap data' dest'
          end
      end
  end.

(** Canonical: twig.go:89-103, for the twig at [p] with slice [sl]. *)
Definition canonicalTwigH (fuel : nat) (depth : nat) (p : nat) (sl : slice) : M (option nat) :=
  l <~ elemsOf sl ;;
  match l with
  | [] => ret None
  | [a] => q <~ alloc (OLeaf1 a) ;; ret (Some q)
  | [a; b] => q <~ alloc (OLeaf2 a b) ;; ret (Some q)
  | _ =>
      if ((length l <=? maxLeafLen) || (64 <=? depth * fb))%nat then ret (Some p)
      else q <~ newBranchFromH fuel depth sl ;; ret (Some q)
  end.

(** [newTwig(sl...).Canonical(depth)]. *)
Definition newCanonicalH (fuel : nat) (depth : nat) (sl : slice) : M (option nat) :=
  p <~ newTwigH sl ;; canonicalTwigH fuel depth p sl.

(** Fuel for walking a node: each of the levels, and each child on the way. *)
Definition walkFuel : nat := (maxTreeDepth + 2) * (fanout + 2).

(** Canonical: branch.go:86-92, for the branch at [p]. *)
Definition canonicalBranchH (fuel : nat) (p : nat) : M (option nat) :=
  d <~ appendToH walkFuel maxLeafLen p [] ;;
  match d with
  | Some data => sl <~ newSlice data ;; newCanonicalH fuel 0 sl
  | None => ret (Some p)
  end.

(** Get: leaf1.go:106-111, leaf2.go:140-147, twig.go:191-198, branch.go:173-179. The element found (the code returns a
    pointer to it; the callers read it at once). *)
Fixpoint getH (fuel : nat) (p : nat) (v : T) (h : N) : M (option T) :=
  match fuel with
  | O => fail Fuel
  | S k =>
      o <~ load p ;;
      match o with
      | OLeaf1 a => ret (if veq a v then Some a else None)
      | OLeaf2 a b => ret (if veq a v then Some a else if veq b v then Some b else None)
      | OTwig r len => l <~ elemsOf (r, len) ;; ret (find (fun e => veq e v) l)
      | OBranch _ data =>
          match childP data (h_hash h) with
          | Some x => getH k x v (h_next h)
          | None => ret None
          end
      end
  end.

(** twig.go:324-326 [cloneWithExtra(0)], the new slice. *)
Definition cloneSlice (sl : slice) : M slice := l <~ elemsOf sl ;; newSlice l.

(** With: leaf1.go:156-161, leaf2.go:216-225, twig.go:282-292, branch.go:330-345 with [eq = args.eq], [f = args.f];
    WithFast: leaf1.go:163-168, leaf2.go:227-236, twig.go:294-304, branch.go:347-358 with [eq = value.Equal] and [f]
    returning its second argument. *)
Fixpoint withH (fuel : nat) (eq : T -> T -> bool) (f : T -> T -> T) (p : nat) (v : T) (depth : nat) (h : N)
    {struct fuel} : M (nat * Z) :=
  match fuel with
  | O => fail Fuel
  | S k =>
      o <~ load p ;;
      match o with
      | OLeaf1 a =>
          if eq a v then q <~ alloc (OLeaf1 (f a v)) ;; ret (q, 1)
          else q <~ alloc (OLeaf2 a v) ;; ret (q, 0)
      | OLeaf2 a b =>
          if eq a v then q <~ alloc (OLeaf2 (f a v) b) ;; ret (q, 1)
          else if eq b v then q <~ alloc (OLeaf2 a (f b v)) ;; ret (q, 1)
          else
            sl <~ newSlice [a; b; v] ;;
            q <~ newBranchFromH k depth sl ;;
            ret (q, 0)
      | OTwig r len =>
          l <~ elemsOf (r, len) ;;
          match indexOf (fun e => eq e v) l with
          | Some i =>
              sl <~ cloneSlice (r, len) ;;
              q <~ newTwigH sl ;;
              _ <~ setSlot sl i (f (nth i l v) v) ;;
              ret (q, 1)
          | None =>
              sl <~ append (r, len) v ;;
              o <~ newCanonicalH k depth sl ;;
              match o with Some q => ret (q, 0) | None => fail Panic end
          end
      | OBranch mask data =>
          let i := h_hash h in
          match childP data i with
          | Some x =>
              '(x2, m) <~ withH k eq f x v (S depth) (h_next h) ;;
              if (x2 =? x)%nat then ret (p, m)
              else q <~ newBranchH (setChildP (mask, data) i (Some x2)) ;; ret (q, m)
          | None =>
              l <~ alloc (OLeaf1 v) ;;
              q <~ newBranchH (setChildP (mask, data) i (Some l)) ;; ret (q, 0)
          end
      end
  end.

Definition ptr_eqb (a b : option nat) : bool :=
  match a, b with
  | Some x, Some y => (x =? y)%nat
  | None, None => true
  | _, _ => false
  end.

(** Without: leaf1.go:170-175, leaf2.go:238-246, twig.go:306-318, branch.go:360-372. *)
Fixpoint withoutH (fuel : nat) (p : nat) (v : T) (depth : nat) (h : N) {struct fuel} : M (option nat * Z) :=
  match fuel with
  | O => fail Fuel
  | S k =>
      o <~ load p ;;
      match o with
      | OLeaf1 a => if veq a v then ret (None, 1) else ret (Some p, 0)
      | OLeaf2 a b =>
          if veq a v then q <~ alloc (OLeaf1 b) ;; ret (Some q, 1)
          else if veq b v then q <~ alloc (OLeaf1 a) ;; ret (Some q, 1)
          else ret (Some p, 0)
      | OTwig r len =>
          l <~ elemsOf (r, len) ;;
          match indexOf (fun e => veq e v) l with
          | Some i =>
              sl <~ cloneSlice (r, (len - 1)%nat) ;;
              q <~ newTwigH sl ;;
              _ <~ (if (i =? snd sl)%nat then ret tt else setSlot sl i (nth (snd sl) l v)) ;;
              o <~ canonicalTwigH k depth q sl ;;
              ret (o, 1)
          | None => ret (Some p, 0)
          end
      | OBranch mask data =>
          let i := h_hash h in
          match childP data i with
          | Some x =>
              '(x2, m) <~ withoutH k x v (S depth) (h_next h) ;;
              if ptr_eqb x2 (Some x) then ret (Some p, m)
              else
                q <~ newBranchH (setChildP (N.lor mask (newMasker i), data) i x2) ;;
                o <~ canonicalBranchH k q ;;
                ret (o, m)
          | None => ret (Some p, 0)
          end
      end
  end.

(** leaf1.go:16-25 [newLeaf]. *)
Definition newLeafH (data : list T) : M nat :=
  match data with
  | [a] => alloc (OLeaf1 a)
  | [a; b] => alloc (OLeaf2 a b)
  | _ => fail Panic
  end.

(** Remove (builder): leaf1.go:129-135, leaf2.go:172-182, twig.go:220-237 (in place), branch.go:222-240 (on a copy of
    the branch, line 228, allocated here with its final mask). The ghost count of claimed slots of the array of a twig
    drops with the twig. *)
Fixpoint removeH (fuel : nat) (p : nat) (v : T) (depth : nat) (h : N) {struct fuel} : M (option nat * Z) :=
  match fuel with
  | O => fail Fuel
  | S k =>
      o <~ load p ;;
      match o with
      | OLeaf1 a => if veq a v then ret (None, 1) else ret (Some p, 0)
      | OLeaf2 a b =>
          if veq a v then q <~ alloc (OLeaf1 b) ;; ret (Some q, 1)
          else if veq b v then q <~ alloc (OLeaf1 a) ;; ret (Some q, 1)
          else ret (Some p, 0)
      | OTwig r len =>
          l <~ elemsOf (r, len) ;;
          match indexOf (fun e => veq e v) l with
          | Some i =>
              let last := (len - 1)%nat in
              if (last =? 0)%nat then ret (None, 1)
              else
                _ <~ (if (i <? last)%nat then setSlot (r, len) i (nth last l v) else ret tt) ;;
                a <~ loadArr r ;;
                _ <~ storeArr r None (mkArray (a_slots a) (a_cap a) last) ;;
                _ <~ store p (OTwig r last) ;;
                o <~ canonicalTwigH k depth p (r, last) ;;
                ret (o, 1)
          | None => ret (Some p, 0)
          end
      | OBranch mask data =>
          let i := h_hash h in
          match childP data i with
          | Some c =>
              '(n, m) <~ removeH k c v (S depth) (h_next h) ;;
              let data' := set_nth data i n in
              q <~ newBranchH (updateMaskP data', data') ;;
              on <~ match n with Some x => o' <~ load x ;; ret (Some o') | None => ret None end ;;
              match on with
              | Some (OBranch _ _) => ret (Some q, m)
              | _ =>
                  d <~ appendToH walkFuel maxLeafLen q [] ;;
                  match d with
                  | Some es => l <~ newLeafH es ;; ret (Some l, m)
                  | None => ret (Some q, m)
                  end
              end
          | None => ret (Some p, 0)
          end
      end
  end.

(** gauge.go:51-84 [Gauge.Parallel] for closures that always report true: the children named by the mask, in the order
    in which the goroutines finish; the matches are added up. [res] collects the new children. *)
Fixpoint parallelH_loop (f : nat -> M (option nat * Z)) (order : list nat) (matches : Z) (data : list (option nat)) :
    M (list (option nat) * Z) :=
  match order with
  | [] => ret (data, matches)
  | i :: order' =>
      '(r, m) <~ f i ;;
      parallelH_loop f order' (matches + m) (set_nth data i r)
  end.
Definition parallelH (g : gauge) (depth : nat) (mask : N) (f : nat -> M (option nat * Z)) : M (list (option nat) * Z) :=
  parallelH_loop f (par_order g depth mask) 0 emptyDataP.

(** Combine of two leaf2 nodes: leaf2.go:73-91. *)
Definition combineLeaf2H_step (fuel : nat) (args : CombineArgs T) (depth : nat) (l0 l1 n0 n1 : T) : option (M (nat * Z)) :=
  if c_eq args l0 n0 then
    let r0 := c_f args l0 n0 in
    if c_eq args l1 n1 then Some (q <~ alloc (OLeaf2 r0 (c_f args l1 n1)) ;; ret (q, 2))
    else Some (sl <~ newSlice [r0; l1; n1] ;; q <~ newBranchFromH fuel depth sl ;; ret (q, 1))
  else if c_eq args l1 n1 then
    Some (sl <~ newSlice [l0; n0; c_f args l1 n1] ;; q <~ newBranchFromH fuel depth sl ;; ret (q, 1))
  else None.
Definition combineLeaf2H (fuel : nat) (args : CombineArgs T) (depth : nat) (l0 l1 n0 n1 : T) : M (nat * Z) :=
  match combineLeaf2H_step fuel args depth l0 l1 n0 n1 with
  | Some r => r
  | None =>
      match combineLeaf2H_step fuel args depth l0 l1 n1 n0 with
      | Some r => r
      | None => sl <~ newSlice [l0; l1; n0; n1] ;; q <~ newBranchFromH fuel depth sl ;; ret (q, 0)
      end
  end.

(** Combine of two leaf1 nodes: leaf1.go:73-77. *)
Definition combineLeaf1H (args : CombineArgs T) (a b : T) : M (nat * Z) :=
  if c_eq args a b then q <~ alloc (OLeaf1 (c_f args a b)) ;; ret (q, 1)
  else q <~ alloc (OLeaf2 a b) ;; ret (q, 0).

(** Combine of a leaf2 with a leaf1: leaf2.go:92-102. *)
Definition combineLeaf21H (fuel : nat) (args : CombineArgs T) (depth : nat) (l0 l1 nd : T) : M (nat * Z) :=
  if c_eq args l0 nd then q <~ alloc (OLeaf2 (c_f args l0 nd) l1) ;; ret (q, 1)
  else if c_eq args l1 nd then q <~ alloc (OLeaf2 l0 (c_f args l1 nd)) ;; ret (q, 1)
  else sl <~ newSlice [l0; l1; nd] ;; q <~ newBranchFromH fuel depth sl ;; ret (q, 0).

(** twig.go:131-139: a branch is built, and only its matches are kept. *)
Definition combineTwigH_dropped (fuel : nat) (args : CombineArgs T) (depth : nat) (l rest : list T) : M Z :=
  b <~ emptyBranchH ;;
  foldMM (fun m e => '(_, m') <~ addH fuel (c_eq args) (c_f args) b e depth (newHasher e depth) ;; ret (m + m'))
         0 (l ++ rest).

(** twig.go:116-141: the scanning loop; [sl] is [l.data]. *)
Fixpoint combineTwigH_scan (fuel : nat) (args : CombineArgs T) (depth : nat) (sl : slice) (cloned : bool)
    (ndata : list T) (matches : Z) : M (slice * Z) :=
  match ndata with
  | [] => ret (sl, matches)
  | e :: rest =>
      l <~ elemsOf sl ;;
      match indexOf (fun f => c_eq args f e) l with
      | Some j =>
          sl' <~ (if cloned then ret sl else cloneSlice sl) ;;
          _ <~ setSlot sl' j (c_f args (nth j l e) e) ;;
          combineTwigH_scan fuel args depth sl' true rest (matches + 1)
      | None =>
          if (snd sl <? maxLeafLen)%nat then
            sl' <~ append sl e ;;
            combineTwigH_scan fuel args depth sl' cloned rest matches
          else
            m <~ combineTwigH_dropped fuel args depth l (e :: rest) ;;
            combineTwigH_scan fuel args depth sl cloned rest (matches + m)
      end
  end.

(** Combine of two twigs: twig.go:105-146. (The twig object made for each new slice is only made at the end here.) *)
Definition combineTwigH (fuel : nat) (args : CombineArgs T) (depth : nat) (sl sl2 : slice) : M (nat * Z) :=
  ndata <~ elemsOf sl2 ;;
  '(sl', m) <~ combineTwigH_scan fuel args depth sl false ndata 0 ;;
  if (maxLeafLen <? snd sl')%nat then fail Panic
  else
    o <~ newCanonicalH fuel depth sl' ;;
    match o with Some q => ret (q, m) | None => fail Panic end.

(** The two calls of [with] in branch.go:113-119. *)
Definition with2H (fuel : nat) (args : CombineArgs T) (p : nat) (a b : T) (depth : nat) : M (nat * Z) :=
  '(q, m1) <~ withH fuel (c_eq args) (c_f args) p a depth (newHasher a depth) ;;
  '(q2, m2) <~ withH fuel (c_eq args) (c_f args) q b depth (newHasher b depth) ;;
  ret (q2, m1 + m2).

(** Combine: leaf1.go:67-81, leaf2.go:68-106, twig.go:105-146, branch.go:94-123. *)
Fixpoint combineH (fuel : nat) (args : CombineArgs T) (p p2 : nat) (depth : nat) {struct fuel} : M (nat * Z) :=
  match fuel with
  | O => fail Fuel
  | S k =>
      o <~ load p ;; o2 <~ load p2 ;;
      match o, o2 with
      | OBranch m1 d1, OBranch m2 d2 =>
          '(data, matches) <~ parallelH (c_gauge args) depth (N.lor m1 m2)
            (fun i =>
               match childP d1 i, childP d2 i with
               | None, y => ret (y, 0)
               | x, None => ret (x, 0)
               | Some x, Some y => '(r, m) <~ combineH k (c_sub i args) x y (S depth) ;; ret (Some r, m)
               end) ;;
          q <~ newBranchH (updateMaskP data, data) ;;
          ret (q, matches)
      | OBranch _ _, OLeaf1 a => withH k (c_eq args) (c_f args) p a depth (newHasher a depth)
      | OBranch _ _, OLeaf2 a b => with2H k args p a b depth
      | OBranch _ _, OTwig _ _ => fail Panic
      | OLeaf1 a, OBranch _ _ => withH k (c_eq (flip_args args)) (c_f (flip_args args)) p2 a depth (newHasher a depth)
      | OLeaf1 a, OLeaf2 b c => combineLeaf21H k (flip_args args) depth b c a
      | OLeaf1 a, OLeaf1 b => combineLeaf1H args a b
      | OLeaf1 _, OTwig _ _ => fail Panic
      | OLeaf2 a b, OBranch _ _ => with2H k (flip_args args) p2 a b depth
      | OLeaf2 a b, OLeaf2 c d => combineLeaf2H k args depth a b c d
      | OLeaf2 a b, OLeaf1 c => combineLeaf21H k args depth a b c
      | OLeaf2 _ _, OTwig _ _ => fail Panic
      | OTwig r len, OTwig r2 len2 => combineTwigH k args depth (r, len) (r2, len2)
      | OTwig _ _, _ => fail Panic
      end
  end.

(** [n.Get(e, newHasher(e, depth)) != nil]. *)
Definition has_atH (fuel : nat) (p : nat) (e : T) (depth : nat) : M bool :=
  o <~ getH fuel p e (newHasher e depth) ;; ret (isSome o).

(** The filtering loops of twig.go:156-164 and twig.go:201-208, appending to the slice of the new twig. *)
Fixpoint filterGetH (fuel : nat) (keep : bool) (l : list T) (p : nat) (depth : nat) (sl : slice) (matches : Z) :
    M (slice * Z) :=
  match l with
  | [] => ret (sl, matches)
  | e :: l' =>
      b <~ has_atH fuel p e depth ;;
      sl' <~ (if Bool.eqb b keep then append sl e else ret sl) ;;
      filterGetH fuel keep l' p depth sl' (if b then matches + 1 else matches)
  end.

(** Difference: leaf1.go:90-95, leaf2.go:115-128, twig.go:155-166, branch.go:125-153. *)
Fixpoint differenceH (fuel : nat) (g : gauge) (p p2 : nat) (depth : nat) {struct fuel} : M (option nat * Z) :=
  match fuel with
  | O => fail Fuel
  | S k =>
      o <~ load p ;;
      match o with
      | OLeaf1 a =>
          b <~ has_atH k p2 a depth ;;
          if (b : bool) then ret (None, 1) else ret (Some p, 0)
      | OLeaf2 x y =>
          a <~ has_atH k p2 x depth ;;
          b <~ has_atH k p2 y depth ;;
          match a, b with
          | true, true => ret (None, 2)
          | true, false => q <~ alloc (OLeaf1 y) ;; ret (Some q, 1)
          | false, true => q <~ alloc (OLeaf1 x) ;; ret (Some q, 1)
          | false, false => ret (Some p, 0)
          end
      | OTwig r len =>
          l <~ elemsOf (r, len) ;;
          sl0 <~ newSlice [] ;;
          '(sl, m) <~ filterGetH k false l p2 depth sl0 0 ;;
          o <~ newCanonicalH k depth sl ;;
          ret (o, m)
      | OBranch m1 d1 =>
          o2 <~ load p2 ;;
          match o2 with
          | OBranch _ d2 =>
              '(data, matches) <~ parallelH g depth m1
                (fun i =>
                   match childP d1 i, childP d2 i with
                   | x, None => ret (x, 0)
                   | None, Some _ => fail Panic
                   | Some x, Some y => differenceH k (g_sub i g) x y (S depth)
                   end) ;;
              q <~ newBranchH (updateMaskP data, data) ;;
              o <~ canonicalBranchH k q ;;
              ret (o, matches)
          | OLeaf1 a => withoutH k p a depth (newHasher a depth)
          | OLeaf2 a b =>
              '(o1, m1) <~ withoutH k p a depth (newHasher a depth) ;;
              match o1 with
              | None => fail Panic
              | Some q =>
                  '(o2, m2) <~ withoutH k q b depth (newHasher b depth) ;;
                  ret (o2, m1 + m2)
              end
          | OTwig _ _ => fail Panic
          end
      end
  end.

(** Intersection of a leaf with any node: leaf1.go:113-118, leaf2.go:149-162. [p] is the leaf. *)
Definition intersectLeaf1H (fuel : nat) (p : nat) (a : T) (p2 : nat) (depth : nat) : M (option nat * Z) :=
  b <~ has_atH fuel p2 a depth ;;
  if (b : bool) then ret (Some p, 1) else ret (None, 0).
Definition intersectLeaf2H (fuel : nat) (p : nat) (x y : T) (p2 : nat) (depth : nat) : M (option nat * Z) :=
  g0 <~ has_atH fuel p2 x depth ;;
  g1 <~ has_atH fuel p2 y depth ;;
  match g0, g1 with
  | true, true => ret (Some p, 2)
  | true, false => q <~ alloc (OLeaf1 x) ;; ret (Some q, 1)
  | false, true => q <~ alloc (OLeaf1 y) ;; ret (Some q, 1)
  | false, false => ret (None, 0)
  end.

(** Intersection: leaf1.go:113-118, leaf2.go:149-162, twig.go:200-210, branch.go:181-201. *)
Fixpoint intersectionH (fuel : nat) (g : gauge) (p p2 : nat) (depth : nat) {struct fuel} : M (option nat * Z) :=
  match fuel with
  | O => fail Fuel
  | S k =>
      o <~ load p ;;
      match o with
      | OLeaf1 a => intersectLeaf1H k p a p2 depth
      | OLeaf2 x y => intersectLeaf2H k p x y p2 depth
      | OTwig r len =>
          l <~ elemsOf (r, len) ;;
          sl0 <~ newSlice [] ;;
          '(sl, m) <~ filterGetH k true l p2 depth sl0 0 ;;
          o <~ newCanonicalH k depth sl ;;
          ret (o, m)
      | OBranch m1 d1 =>
          o2 <~ load p2 ;;
          match o2 with
          | OBranch m2 d2 =>
              '(data, matches) <~ parallelH g depth (N.land m1 m2)
                (fun i =>
                   match childP d1 i, childP d2 i with
                   | Some x, Some y => intersectionH k (g_sub i g) x y (S depth)
                   | _, _ => fail Panic
                   end) ;;
              q <~ newBranchH (updateMaskP data, data) ;;
              o <~ canonicalBranchH k q ;;
              ret (o, matches)
          | OLeaf1 a => intersectLeaf1H k p2 a p depth
          | OLeaf2 x y => intersectLeaf2H k p2 x y p depth
          | OTwig _ _ => fail Panic
          end
      end
  end.

(** The loop of twig.go:273-278. *)
Fixpoint filterPredH (pred : T -> bool) (l : list T) (sl : slice) (matches : Z) : M (slice * Z) :=
  match l with
  | [] => ret (sl, matches)
  | e :: l' =>
      if pred e then sl' <~ append sl e ;; filterPredH pred l' sl' (matches + 1)
      else filterPredH pred l' sl matches
  end.

Fixpoint ptrs_eqb (a b : list (option nat)) : bool :=
  match a, b with
  | [], [] => true
  | x :: a', y :: b' => ptr_eqb x y && ptrs_eqb a' b'
  | _, _ => false
  end.

(** Where: leaf1.go:149-154, leaf2.go:201-214, twig.go:271-280, branch.go:287-301. *)
Fixpoint whereH (fuel : nat) (g : gauge) (pred : T -> bool) (p : nat) (depth : nat) {struct fuel} : M (option nat * Z) :=
  match fuel with
  | O => fail Fuel
  | S k =>
      o <~ load p ;;
      match o with
      | OLeaf1 a => if pred a then ret (Some p, 1) else ret (None, 0)
      | OLeaf2 a b =>
          match pred a, pred b with
          | true, true => ret (Some p, 2)
          | true, false => q <~ alloc (OLeaf1 a) ;; ret (Some q, 1)
          | false, true => q <~ alloc (OLeaf1 b) ;; ret (Some q, 1)
          | false, false => ret (None, 0)
          end
      | OTwig r len =>
          l <~ elemsOf (r, len) ;;
          sl0 <~ newSlice [] ;;
          '(sl, m) <~ filterPredH pred l sl0 0 ;;
          o <~ newCanonicalH k depth sl ;;
          ret (o, m)
      | OBranch mask data =>
          '(nodes, matches) <~ parallelH g depth mask
            (fun i =>
               match childP data i with
               | None => fail Panic
               | Some x => whereH k (g_sub i g) pred x (S depth)
               end) ;;
          if ((updateMaskP nodes =? mask)%N && ptrs_eqb nodes data)%bool then ret (Some p, matches)
          else
            q <~ newBranchH (updateMaskP nodes, nodes) ;;
            o <~ canonicalBranchH k q ;;
            ret (o, matches)
      end
  end.

End HeapOps.
