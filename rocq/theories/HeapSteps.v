(** * HeapSteps: the operations on the heap as sequences of single memory accesses.

    HeapModel.v and HeapProg.v give each operation as a function on heaps. Here the operations are programs whose steps
    are single accesses, so that programs of several goroutines can be interleaved (HeapShare.v). The definitions are
    those of the two files word for word, with an access in place of its effect; the names end in T for H. [same_...]:
    without interference, the program does what the operation does.

    Simplifications: those of HeapModel.v. An assignment to a slot of an array is a read and a write of the whole array,
    which is too coarse where two goroutines change the same array; HeapShare.v is about programs that share no memory
    they write to. *)
From Verif Require Import Base Bits Env EnvFacts Node Tree HeapModel HeapFrame HeapProg.
Local Open Scope Z_scope.

Section Steps.
Context {E : Env} {T : Type} {K : Key T} (grow : nat -> nat -> nat).
Notation obj := (obj (T := T)).
Notation heap := (heap (T := T)).
Notation array := (array (T := T)).
Notation M := (M (T := T)).

(** The memory accesses of HeapModel.v. *)
Inductive access : Type -> Type :=
| AAlloc (o : obj) : access nat
| ALoad (p : nat) : access obj
| AStore (p : nat) (o : obj) : access unit
| AAllocArr (a : array) : access nat
| ALoadArr (r : nat) : access array
| AStoreArr (r : nat) (i : option nat) (a : array) : access unit
| ACountOver (n : nat) : access unit.
Definition runA {A} (x : access A) : M A :=
  match x with
  | AAlloc o => alloc o
  | ALoad p => load p
  | AStore p o => store p o
  | AAllocArr a => allocArr a
  | ALoadArr r => loadArr r
  | AStoreArr r i a => storeArr r i a
  | ACountOver n => countOver n
  end.

(** A program: finished, or an access and what follows, given its outcome (a nil dereference panics). *)
Inductive P (A : Type) : Type :=
| Done (r : res A)
| Do (X : Type) (x : access X) (k : res X -> P A).
Arguments Done {A} _.
Arguments Do {A X} _ _.

(** Running it without interference. *)
Fixpoint runT {A} (t : P A) : M A := fun h =>
  match t with
  | Done r => (r, h)
  | Do x k => let '(r, h') := runA x h in runT (k r) h'
  end.

Definition retT {A} (a : A) : P A := Done (Ok a).
Definition failT {A} (r : res A) : P A := Done r.
(** What follows is given how the first program ended. *)
Fixpoint tryT {A B} (t : P A) (k : res A -> P B) : P B :=
  match t with
  | Done r => k r
  | Do x c => Do x (fun r => tryT (c r) k)
  end.
Definition bindT {A B} (t : P A) (k : A -> P B) : P B :=
  tryT t (fun r => match r with Ok a => k a | Panic => Done Panic | Fuel => Done Fuel end).

Definition allocT (o : obj) : P nat := Do (AAlloc o) Done.
Definition loadT (p : nat) : P obj := Do (ALoad p) Done.
Definition storeT (p : nat) (o : obj) : P unit := Do (AStore p o) Done.
Definition allocArrT (a : array) : P nat := Do (AAllocArr a) Done.
Definition loadArrT (r : nat) : P array := Do (ALoadArr r) Done.
Definition storeArrT (r : nat) (i : option nat) (a : array) : P unit := Do (AStoreArr r i a) Done.
Definition countOverT (n : nat) : P unit := Do (ACountOver n) Done.

Local Notation "x <~~ m ;; k" := (bindT m (fun x => k)) (at level 61, m at next level, right associativity).
Local Notation "' p <~~ m ;; k" := (bindT m (fun x => match x with p => k end))
  (at level 61, p pattern, m at next level, right associativity).

(** A Go [for range] loop whose body may panic. *)
Fixpoint foldT {A S} (f : S -> A -> P S) (s : S) (l : list A) : P S :=
  match l with
  | [] => retT s
  | a :: l' => s' <~~ f s a ;; foldT f s' l'
  end.

(** The elements of a slice. *)
Definition elemsOfT (sl : slice) : P (list T) :=
  a <~~ loadArrT (fst sl) ;; retT (firstn (snd sl) (a_slots a)).

(** The slice of a variadic call with the given arguments, or [append(make([]T, 0, n), l...)] with [n = len(l)]. *)
Definition newSliceT (data : list T) : P slice :=
  r <~~ allocArrT (mkArray data (length data) (length data)) ;; retT (r, length data).

(** [sl[i] = v]. *)
Definition setSlotT (sl : slice) (i : nat) (v : T) : P unit :=
  a <~~ loadArrT (fst sl) ;;
  storeArrT (fst sl) (Some i) (mkArray (set_nth (a_slots a) i v) (a_cap a) (a_used a)).

(** The builtin [append(sl, v)]. With spare capacity it writes into the array of [sl]. *)
Definition appendT (sl : slice) (v : T) : P slice :=
  let '(r, len) := sl in
  a <~~ loadArrT r ;;
  if (len <? a_cap a)%nat then
    _ <~~ countOverT (if (len <? a_used a)%nat then 1 else 0)%nat ;;
    _ <~~ storeArrT r (Some len) (mkArray (firstn len (a_slots a) ++ v :: skipn (S len) (a_slots a)) (a_cap a)
                             (Nat.max (a_used a) (S len))) ;;
    retT (r, S len)
  else
    r' <~~ allocArrT (mkArray (firstn len (a_slots a) ++ [v]) (Nat.max (S len) (grow (a_cap a) (S len))) (S len)) ;;
    retT (r', S len).

(** twig.go:16-18 [newTwig]. *)
Definition newTwigT (sl : slice) : P nat := allocT (OTwig (fst sl) (snd sl)).

(** branch.go:27-33 [newBranch]. *)
Definition newBranchT (p : N * list (option nat)) : P nat := allocT (OBranch (fst p) (snd p)).

Definition emptyBranchT : P nat := newBranchT (0%N, emptyDataP).

(** branch.go:35-45 [newBranchFrom], given the [AddFast] it calls. *)
Definition newBranchFromT_with (addFast : nat -> T -> nat -> N -> P (nat * Z)) (depth : nat) (sl : slice) : P nat :=
  if (maxTreeDepth <=? depth)%nat then newTwigT sl
  else
    data <~~ elemsOfT sl ;;
    b <~~ emptyBranchT ;;
    _ <~~ foldT (fun _ e => addFast b e depth (newHasher e depth)) (b, 0) data ;;
    retT b.

(** Add: leaf1.go:47-53, leaf2.go:38-49, twig.go:41-63, branch.go:47-59 with [eq = args.eq], [f = args.f];
    AddFast: leaf1.go:55-61, leaf2.go:51-62, twig.go:65-87, branch.go:61-73 with [eq = value.Equal] and [f] returning
    its second argument. The two differ in nothing else; both use AddFast in [newBranchFrom]. *)
Fixpoint addT (fuel : nat) (eq : T -> T -> bool) (f : T -> T -> T) (p : nat) (v : T) (depth : nat) (h : N)
    {struct fuel} : P (nat * Z) :=
  match fuel with
  | O => failT Fuel
  | S k =>
      o <~~ loadT p ;;
      match o with
      | OLeaf1 a =>
          if eq a v then _ <~~ storeT p (OLeaf1 (f a v)) ;; retT (p, 1)
          else q <~~ allocT (OLeaf2 a v) ;; retT (q, 0)
      | OLeaf2 a b =>
          if eq a v then _ <~~ storeT p (OLeaf2 (f a v) b) ;; retT (p, 1)
          else if eq b v then _ <~~ storeT p (OLeaf2 a (f b v)) ;; retT (p, 1)
          else
            sl <~~ newSliceT [a; b; v] ;;
            q <~~ newBranchFromT_with (addT k veq (fun _ b => b)) depth sl ;;
            retT (q, 0)
      | OTwig r len =>
          l <~~ elemsOfT (r, len) ;;
          match indexOf (fun e => eq e v) l with
          | Some i =>
              _ <~~ setSlotT (r, len) i (f (nth i l v) v) ;;
              retT (p, 1)
          | None =>
              a <~~ loadArrT r ;;
              if ((len <? a_cap a) || (maxTreeDepth <=? depth))%nat then
                sl <~~ appendT (r, len) v ;;
                _ <~~ storeT p (OTwig (fst sl) (snd sl)) ;;
                retT (p, 0)
              else
                b <~~ emptyBranchT ;;
                m <~~ foldT (fun m e => '(_, m') <~~ addT k eq f b e depth (newHasher e depth) ;; retT (m + m')) 0 l ;;
                '(_, m') <~~ addT k eq f b v depth h ;;
                retT (b, m + m')
          end
      | OBranch mask data =>
          let i := h_hash h in
          match childP data i with
          | None =>
              q <~~ allocT (OLeaf1 v) ;;
              let pk := setNonNilChildP (mask, data) i (Some q) in
              _ <~~ storeT p (OBranch (fst pk) (snd pk)) ;;
              retT (p, 0)
          | Some c =>
              '(q, m) <~~ addT k eq f c v (S depth) (h_next h) ;;
              let pk := setNonNilChildP (mask, data) i (Some q) in
              _ <~~ storeT p (OBranch (fst pk) (snd pk)) ;;
              retT (p, m)
          end
      end
  end.

Definition addFastT (fuel : nat) : nat -> T -> nat -> N -> P (nat * Z) := addT fuel veq (fun _ b => b).

(** branch.go:35-45 [newBranchFrom]. *)
Definition newBranchFromT (fuel : nat) (depth : nat) (sl : slice) : P nat := newBranchFromT_with (addFastT fuel) depth sl.

(** AppendTo: leaf1.go:83-88, leaf2.go:108-113, twig.go:148-153, branch.go:75-84, to a buffer of capacity [cap] on the
    stack; [None] is the nil slice. *)
Fixpoint appendToT (fuel : nat) (cap : nat) (p : nat) (dest : list T) : P (option (list T)) :=
  match fuel with
  | O => failT Fuel
  | S k =>
      o <~~ loadT p ;;
      match o with
      | OLeaf1 a => retT (if (cap <? length dest + 1)%nat then None else Some (dest ++ [a]))
      | OLeaf2 a b => retT (if (cap <? length dest + 2)%nat then None else Some (dest ++ [a; b]))
      | OTwig r len =>
          l <~~ elemsOfT (r, len) ;;
          retT (if (cap <? length dest + length l)%nat then None else Some (dest ++ l))
      | OBranch _ data => appendAllT k cap data dest
      end
  end
(** The loop of branch.go:76-82. *)
with appendAllT (fuel : nat) (cap : nat) (data : list (option nat)) (dest : list T) : P (option (list T)) :=
  match fuel with
  | O => failT Fuel
  | S k =>
      match data with
      | [] => retT (Some dest)
      | None :: data' => appendAllT k cap data' dest
      | Some c :: data' =>
          d <~~ appendToT k cap c dest ;;
          match d with
          | None => retT None
          | Some dest' => appendAllT k cap data' dest'
          end
      end
  end.

(** Canonical: twig.go:89-103, for the twig at [p] with slice [sl]. *)
Definition canonicalTwigT (fuel : nat) (depth : nat) (p : nat) (sl : slice) : P (option nat) :=
  l <~~ elemsOfT sl ;;
  match l with
  | [] => retT None
  | [a] => q <~~ allocT (OLeaf1 a) ;; retT (Some q)
  | [a; b] => q <~~ allocT (OLeaf2 a b) ;; retT (Some q)
  | _ =>
      if ((length l <=? maxLeafLen) || (64 <=? depth * fb))%nat then retT (Some p)
      else q <~~ newBranchFromT fuel depth sl ;; retT (Some q)
  end.

(** [newTwig(sl...).Canonical(depth)]. *)
Definition newCanonicalT (fuel : nat) (depth : nat) (sl : slice) : P (option nat) :=
  p <~~ newTwigT sl ;; canonicalTwigT fuel depth p sl.

(** Canonical: branch.go:86-92, for the branch at [p]. *)
Definition canonicalBranchT (fuel : nat) (p : nat) : P (option nat) :=
  d <~~ appendToT walkFuel maxLeafLen p [] ;;
  match d with
  | Some data => sl <~~ newSliceT data ;; newCanonicalT fuel 0 sl
  | None => retT (Some p)
  end.

(** Get: leaf1.go:106-111, leaf2.go:140-147, twig.go:191-198, branch.go:173-179. The element found (the code returns a
    pointer to it; the callers read it at once). *)
Fixpoint getT (fuel : nat) (p : nat) (v : T) (h : N) : P (option T) :=
  match fuel with
  | O => failT Fuel
  | S k =>
      o <~~ loadT p ;;
      match o with
      | OLeaf1 a => retT (if veq a v then Some a else None)
      | OLeaf2 a b => retT (if veq a v then Some a else if veq b v then Some b else None)
      | OTwig r len => l <~~ elemsOfT (r, len) ;; retT (find (fun e => veq e v) l)
      | OBranch _ data =>
          match childP data (h_hash h) with
          | Some x => getT k x v (h_next h)
          | None => retT None
          end
      end
  end.

(** twig.go:324-326 [cloneWithExtra(0)], the new slice. *)
Definition cloneSliceT (sl : slice) : P slice := l <~~ elemsOfT sl ;; newSliceT l.

(** With: leaf1.go:156-161, leaf2.go:216-225, twig.go:282-292, branch.go:330-345 with [eq = args.eq], [f = args.f];
    WithFast: leaf1.go:163-168, leaf2.go:227-236, twig.go:294-304, branch.go:347-358 with [eq = value.Equal] and [f]
    returning its second argument. *)
Fixpoint withT (fuel : nat) (eq : T -> T -> bool) (f : T -> T -> T) (p : nat) (v : T) (depth : nat) (h : N)
    {struct fuel} : P (nat * Z) :=
  match fuel with
  | O => failT Fuel
  | S k =>
      o <~~ loadT p ;;
      match o with
      | OLeaf1 a =>
          if eq a v then q <~~ allocT (OLeaf1 (f a v)) ;; retT (q, 1)
          else q <~~ allocT (OLeaf2 a v) ;; retT (q, 0)
      | OLeaf2 a b =>
          if eq a v then q <~~ allocT (OLeaf2 (f a v) b) ;; retT (q, 1)
          else if eq b v then q <~~ allocT (OLeaf2 a (f b v)) ;; retT (q, 1)
          else
            sl <~~ newSliceT [a; b; v] ;;
            q <~~ newBranchFromT k depth sl ;;
            retT (q, 0)
      | OTwig r len =>
          l <~~ elemsOfT (r, len) ;;
          match indexOf (fun e => eq e v) l with
          | Some i =>
              sl <~~ cloneSliceT (r, len) ;;
              q <~~ newTwigT sl ;;
              _ <~~ setSlotT sl i (f (nth i l v) v) ;;
              retT (q, 1)
          | None =>
              sl <~~ appendT (r, len) v ;;
              o <~~ newCanonicalT k depth sl ;;
              match o with Some q => retT (q, 0) | None => failT Panic end
          end
      | OBranch mask data =>
          let i := h_hash h in
          match childP data i with
          | Some x =>
              '(x2, m) <~~ withT k eq f x v (S depth) (h_next h) ;;
              if (x2 =? x)%nat then retT (p, m)
              else q <~~ newBranchT (setChildP (mask, data) i (Some x2)) ;; retT (q, m)
          | None =>
              l <~~ allocT (OLeaf1 v) ;;
              q <~~ newBranchT (setChildP (mask, data) i (Some l)) ;; retT (q, 0)
          end
      end
  end.

(** Without: leaf1.go:170-175, leaf2.go:238-246, twig.go:306-318, branch.go:360-372. *)
Fixpoint withoutT (fuel : nat) (p : nat) (v : T) (depth : nat) (h : N) {struct fuel} : P (option nat * Z) :=
  match fuel with
  | O => failT Fuel
  | S k =>
      o <~~ loadT p ;;
      match o with
      | OLeaf1 a => if veq a v then retT (None, 1) else retT (Some p, 0)
      | OLeaf2 a b =>
          if veq a v then q <~~ allocT (OLeaf1 b) ;; retT (Some q, 1)
          else if veq b v then q <~~ allocT (OLeaf1 a) ;; retT (Some q, 1)
          else retT (Some p, 0)
      | OTwig r len =>
          l <~~ elemsOfT (r, len) ;;
          match indexOf (fun e => veq e v) l with
          | Some i =>
              sl <~~ cloneSliceT (r, (len - 1)%nat) ;;
              q <~~ newTwigT sl ;;
              _ <~~ (if (i =? snd sl)%nat then retT tt else setSlotT sl i (nth (snd sl) l v)) ;;
              o <~~ canonicalTwigT k depth q sl ;;
              retT (o, 1)
          | None => retT (Some p, 0)
          end
      | OBranch mask data =>
          let i := h_hash h in
          match childP data i with
          | Some x =>
              '(x2, m) <~~ withoutT k x v (S depth) (h_next h) ;;
              if ptr_eqb x2 (Some x) then retT (Some p, m)
              else
                q <~~ newBranchT (setChildP (N.lor mask (newMasker i), data) i x2) ;;
                o <~~ canonicalBranchT k q ;;
                retT (o, m)
          | None => retT (Some p, 0)
          end
      end
  end.

(** leaf1.go:16-25 [newLeaf]. *)
Definition newLeafT (data : list T) : P nat :=
  match data with
  | [a] => allocT (OLeaf1 a)
  | [a; b] => allocT (OLeaf2 a b)
  | _ => failT Panic
  end.

(** Remove (builder): leaf1.go:129-135, leaf2.go:172-182, twig.go:220-237 (in place), branch.go:222-240 (on a copy of
    the branch, line 228, allocated here with its final mask). The ghost count of claimed slots of the array of a twig
    drops with the twig. *)
Fixpoint removeT (fuel : nat) (p : nat) (v : T) (depth : nat) (h : N) {struct fuel} : P (option nat * Z) :=
  match fuel with
  | O => failT Fuel
  | S k =>
      o <~~ loadT p ;;
      match o with
      | OLeaf1 a => if veq a v then retT (None, 1) else retT (Some p, 0)
      | OLeaf2 a b =>
          if veq a v then q <~~ allocT (OLeaf1 b) ;; retT (Some q, 1)
          else if veq b v then q <~~ allocT (OLeaf1 a) ;; retT (Some q, 1)
          else retT (Some p, 0)
      | OTwig r len =>
          l <~~ elemsOfT (r, len) ;;
          match indexOf (fun e => veq e v) l with
          | Some i =>
              let last := (len - 1)%nat in
              if (last =? 0)%nat then retT (None, 1)
              else
                _ <~~ (if (i <? last)%nat then setSlotT (r, len) i (nth last l v) else retT tt) ;;
                a <~~ loadArrT r ;;
                _ <~~ storeArrT r None (mkArray (a_slots a) (a_cap a) last) ;;
                _ <~~ storeT p (OTwig r last) ;;
                o <~~ canonicalTwigT k depth p (r, last) ;;
                retT (o, 1)
          | None => retT (Some p, 0)
          end
      | OBranch mask data =>
          let i := h_hash h in
          match childP data i with
          | Some c =>
              '(n, m) <~~ removeT k c v (S depth) (h_next h) ;;
              let data' := set_nth data i n in
              q <~~ newBranchT (updateMaskP data', data') ;;
              on <~~ match n with Some x => o' <~~ loadT x ;; retT (Some o') | None => retT None end ;;
              match on with
              | Some (OBranch _ _) => retT (Some q, m)
              | _ =>
                  d <~~ appendToT walkFuel maxLeafLen q [] ;;
                  match d with
                  | Some es => l <~~ newLeafT es ;; retT (Some l, m)
                  | None => retT (Some q, m)
                  end
              end
          | None => retT (Some p, 0)
          end
      end
  end.

(** gauge.go:51-84 [Gauge.Parallel] for closures that always report true: the children named by the mask, in the order
    in which the goroutines finish; the matches are added up. [res] collects the new children. *)
Fixpoint parallelT_loop (f : nat -> P (option nat * Z)) (order : list nat) (matches : Z) (data : list (option nat)) :
    P (list (option nat) * Z) :=
  match order with
  | [] => retT (data, matches)
  | i :: order' =>
      '(r, m) <~~ f i ;;
      parallelT_loop f order' (matches + m) (set_nth data i r)
  end.

Definition parallelT (g : gauge) (depth : nat) (mask : N) (f : nat -> P (option nat * Z)) : P (list (option nat) * Z) :=
  parallelT_loop f (par_order g depth mask) 0 emptyDataP.

(** Combine of two leaf2 nodes: leaf2.go:73-91. *)
Definition combineLeaf2T_step (fuel : nat) (args : CombineArgs T) (depth : nat) (l0 l1 n0 n1 : T) : option (P (nat * Z)) :=
  if c_eq args l0 n0 then
    let r0 := c_f args l0 n0 in
    if c_eq args l1 n1 then Some (q <~~ allocT (OLeaf2 r0 (c_f args l1 n1)) ;; retT (q, 2))
    else Some (sl <~~ newSliceT [r0; l1; n1] ;; q <~~ newBranchFromT fuel depth sl ;; retT (q, 1))
  else if c_eq args l1 n1 then
    Some (sl <~~ newSliceT [l0; n0; c_f args l1 n1] ;; q <~~ newBranchFromT fuel depth sl ;; retT (q, 1))
  else None.

Definition combineLeaf2T (fuel : nat) (args : CombineArgs T) (depth : nat) (l0 l1 n0 n1 : T) : P (nat * Z) :=
  match combineLeaf2T_step fuel args depth l0 l1 n0 n1 with
  | Some r => r
  | None =>
      match combineLeaf2T_step fuel args depth l0 l1 n1 n0 with
      | Some r => r
      | None => sl <~~ newSliceT [l0; l1; n0; n1] ;; q <~~ newBranchFromT fuel depth sl ;; retT (q, 0)
      end
  end.

(** Combine of two leaf1 nodes: leaf1.go:73-77. *)
Definition combineLeaf1T (args : CombineArgs T) (a b : T) : P (nat * Z) :=
  if c_eq args a b then q <~~ allocT (OLeaf1 (c_f args a b)) ;; retT (q, 1)
  else q <~~ allocT (OLeaf2 a b) ;; retT (q, 0).

(** Combine of a leaf2 with a leaf1: leaf2.go:92-102. *)
Definition combineLeaf21T (fuel : nat) (args : CombineArgs T) (depth : nat) (l0 l1 nd : T) : P (nat * Z) :=
  if c_eq args l0 nd then q <~~ allocT (OLeaf2 (c_f args l0 nd) l1) ;; retT (q, 1)
  else if c_eq args l1 nd then q <~~ allocT (OLeaf2 l0 (c_f args l1 nd)) ;; retT (q, 1)
  else sl <~~ newSliceT [l0; l1; nd] ;; q <~~ newBranchFromT fuel depth sl ;; retT (q, 0).

(** twig.go:131-139: a branch is built, and only its matches are kept. *)
Definition combineTwigT_dropped (fuel : nat) (args : CombineArgs T) (depth : nat) (l rest : list T) : P Z :=
  b <~~ emptyBranchT ;;
  foldT (fun m e => '(_, m') <~~ addT fuel (c_eq args) (c_f args) b e depth (newHasher e depth) ;; retT (m + m'))
         0 (l ++ rest).

(** twig.go:116-141: the scanning loop; [sl] is [l.data]. *)
Fixpoint combineTwigT_scan (fuel : nat) (args : CombineArgs T) (depth : nat) (sl : slice) (cloned : bool)
    (ndata : list T) (matches : Z) : P (slice * Z) :=
  match ndata with
  | [] => retT (sl, matches)
  | e :: rest =>
      l <~~ elemsOfT sl ;;
      match indexOf (fun f => c_eq args f e) l with
      | Some j =>
          sl' <~~ (if cloned then retT sl else cloneSliceT sl) ;;
          _ <~~ setSlotT sl' j (c_f args (nth j l e) e) ;;
          combineTwigT_scan fuel args depth sl' true rest (matches + 1)
      | None =>
          if (snd sl <? maxLeafLen)%nat then
            sl' <~~ appendT sl e ;;
            combineTwigT_scan fuel args depth sl' cloned rest matches
          else
            m <~~ combineTwigT_dropped fuel args depth l (e :: rest) ;;
            combineTwigT_scan fuel args depth sl cloned rest (matches + m)
      end
  end.

(** Combine of two twigs: twig.go:105-146. (The twig object made for each new slice is only made at the end here.) *)
Definition combineTwigT (fuel : nat) (args : CombineArgs T) (depth : nat) (sl sl2 : slice) : P (nat * Z) :=
  ndata <~~ elemsOfT sl2 ;;
  '(sl', m) <~~ combineTwigT_scan fuel args depth sl false ndata 0 ;;
  if (maxLeafLen <? snd sl')%nat then failT Panic
  else
    o <~~ newCanonicalT fuel depth sl' ;;
    match o with Some q => retT (q, m) | None => failT Panic end.

(** The two calls of [with] in branch.go:113-119. *)
Definition with2T (fuel : nat) (args : CombineArgs T) (p : nat) (a b : T) (depth : nat) : P (nat * Z) :=
  '(q, m1) <~~ withT fuel (c_eq args) (c_f args) p a depth (newHasher a depth) ;;
  '(q2, m2) <~~ withT fuel (c_eq args) (c_f args) q b depth (newHasher b depth) ;;
  retT (q2, m1 + m2).

(** Combine: leaf1.go:67-81, leaf2.go:68-106, twig.go:105-146, branch.go:94-123. *)
Fixpoint combineT (fuel : nat) (args : CombineArgs T) (p p2 : nat) (depth : nat) {struct fuel} : P (nat * Z) :=
  match fuel with
  | O => failT Fuel
  | S k =>
      o <~~ loadT p ;; o2 <~~ loadT p2 ;;
      match o, o2 with
      | OBranch m1 d1, OBranch m2 d2 =>
          '(data, matches) <~~ parallelT (c_gauge args) depth (N.lor m1 m2)
            (fun i =>
               match childP d1 i, childP d2 i with
               | None, y => retT (y, 0)
               | x, None => retT (x, 0)
               | Some x, Some y => '(r, m) <~~ combineT k (c_sub i args) x y (S depth) ;; retT (Some r, m)
               end) ;;
          q <~~ newBranchT (updateMaskP data, data) ;;
          retT (q, matches)
      | OBranch _ _, OLeaf1 a => withT k (c_eq args) (c_f args) p a depth (newHasher a depth)
      | OBranch _ _, OLeaf2 a b => with2T k args p a b depth
      | OBranch _ _, OTwig _ _ => failT Panic
      | OLeaf1 a, OBranch _ _ => withT k (c_eq (flip_args args)) (c_f (flip_args args)) p2 a depth (newHasher a depth)
      | OLeaf1 a, OLeaf2 b c => combineLeaf21T k (flip_args args) depth b c a
      | OLeaf1 a, OLeaf1 b => combineLeaf1T args a b
      | OLeaf1 _, OTwig _ _ => failT Panic
      | OLeaf2 a b, OBranch _ _ => with2T k (flip_args args) p2 a b depth
      | OLeaf2 a b, OLeaf2 c d => combineLeaf2T k args depth a b c d
      | OLeaf2 a b, OLeaf1 c => combineLeaf21T k args depth a b c
      | OLeaf2 _ _, OTwig _ _ => failT Panic
      | OTwig r len, OTwig r2 len2 => combineTwigT k args depth (r, len) (r2, len2)
      | OTwig _ _, _ => failT Panic
      end
  end.

(** [n.Get(e, newHasher(e, depth)) != nil]. *)
Definition has_atT (fuel : nat) (p : nat) (e : T) (depth : nat) : P bool :=
  o <~~ getT fuel p e (newHasher e depth) ;; retT (isSome o).

(** The filtering loops of twig.go:156-164 and twig.go:201-208, appending to the slice of the new twig. *)
Fixpoint filterGetT (fuel : nat) (keep : bool) (l : list T) (p : nat) (depth : nat) (sl : slice) (matches : Z) :
    P (slice * Z) :=
  match l with
  | [] => retT (sl, matches)
  | e :: l' =>
      b <~~ has_atT fuel p e depth ;;
      sl' <~~ (if Bool.eqb b keep then appendT sl e else retT sl) ;;
      filterGetT fuel keep l' p depth sl' (if b then matches + 1 else matches)
  end.

(** Difference: leaf1.go:90-95, leaf2.go:115-128, twig.go:155-166, branch.go:125-153. *)
Fixpoint differenceT (fuel : nat) (g : gauge) (p p2 : nat) (depth : nat) {struct fuel} : P (option nat * Z) :=
  match fuel with
  | O => failT Fuel
  | S k =>
      o <~~ loadT p ;;
      match o with
      | OLeaf1 a =>
          b <~~ has_atT k p2 a depth ;;
          if (b : bool) then retT (None, 1) else retT (Some p, 0)
      | OLeaf2 x y =>
          a <~~ has_atT k p2 x depth ;;
          b <~~ has_atT k p2 y depth ;;
          match a, b with
          | true, true => retT (None, 2)
          | true, false => q <~~ allocT (OLeaf1 y) ;; retT (Some q, 1)
          | false, true => q <~~ allocT (OLeaf1 x) ;; retT (Some q, 1)
          | false, false => retT (Some p, 0)
          end
      | OTwig r len =>
          l <~~ elemsOfT (r, len) ;;
          sl0 <~~ newSliceT [] ;;
          '(sl, m) <~~ filterGetT k false l p2 depth sl0 0 ;;
          o <~~ newCanonicalT k depth sl ;;
          retT (o, m)
      | OBranch m1 d1 =>
          o2 <~~ loadT p2 ;;
          match o2 with
          | OBranch _ d2 =>
              '(data, matches) <~~ parallelT g depth m1
                (fun i =>
                   match childP d1 i, childP d2 i with
                   | x, None => retT (x, 0)
                   | None, Some _ => failT Panic
                   | Some x, Some y => differenceT k (g_sub i g) x y (S depth)
                   end) ;;
              q <~~ newBranchT (updateMaskP data, data) ;;
              o <~~ canonicalBranchT k q ;;
              retT (o, matches)
          | OLeaf1 a => withoutT k p a depth (newHasher a depth)
          | OLeaf2 a b =>
              '(o1, m1) <~~ withoutT k p a depth (newHasher a depth) ;;
              match o1 with
              | None => failT Panic
              | Some q =>
                  '(o2, m2) <~~ withoutT k q b depth (newHasher b depth) ;;
                  retT (o2, m1 + m2)
              end
          | OTwig _ _ => failT Panic
          end
      end
  end.

(** Intersection of a leaf with any node: leaf1.go:113-118, leaf2.go:149-162. [p] is the leaf. *)
Definition intersectLeaf1T (fuel : nat) (p : nat) (a : T) (p2 : nat) (depth : nat) : P (option nat * Z) :=
  b <~~ has_atT fuel p2 a depth ;;
  if (b : bool) then retT (Some p, 1) else retT (None, 0).

Definition intersectLeaf2T (fuel : nat) (p : nat) (x y : T) (p2 : nat) (depth : nat) : P (option nat * Z) :=
  g0 <~~ has_atT fuel p2 x depth ;;
  g1 <~~ has_atT fuel p2 y depth ;;
  match g0, g1 with
  | true, true => retT (Some p, 2)
  | true, false => q <~~ allocT (OLeaf1 x) ;; retT (Some q, 1)
  | false, true => q <~~ allocT (OLeaf1 y) ;; retT (Some q, 1)
  | false, false => retT (None, 0)
  end.

(** Intersection: leaf1.go:113-118, leaf2.go:149-162, twig.go:200-210, branch.go:181-201. *)
Fixpoint intersectionT (fuel : nat) (g : gauge) (p p2 : nat) (depth : nat) {struct fuel} : P (option nat * Z) :=
  match fuel with
  | O => failT Fuel
  | S k =>
      o <~~ loadT p ;;
      match o with
      | OLeaf1 a => intersectLeaf1T k p a p2 depth
      | OLeaf2 x y => intersectLeaf2T k p x y p2 depth
      | OTwig r len =>
          l <~~ elemsOfT (r, len) ;;
          sl0 <~~ newSliceT [] ;;
          '(sl, m) <~~ filterGetT k true l p2 depth sl0 0 ;;
          o <~~ newCanonicalT k depth sl ;;
          retT (o, m)
      | OBranch m1 d1 =>
          o2 <~~ loadT p2 ;;
          match o2 with
          | OBranch m2 d2 =>
              '(data, matches) <~~ parallelT g depth (N.land m1 m2)
                (fun i =>
                   match childP d1 i, childP d2 i with
                   | Some x, Some y => intersectionT k (g_sub i g) x y (S depth)
                   | _, _ => failT Panic
                   end) ;;
              q <~~ newBranchT (updateMaskP data, data) ;;
              o <~~ canonicalBranchT k q ;;
              retT (o, matches)
          | OLeaf1 a => intersectLeaf1T k p2 a p depth
          | OLeaf2 x y => intersectLeaf2T k p2 x y p depth
          | OTwig _ _ => failT Panic
          end
      end
  end.

(** The loop of twig.go:273-278. *)
Fixpoint filterPredT (pred : T -> bool) (l : list T) (sl : slice) (matches : Z) : P (slice * Z) :=
  match l with
  | [] => retT (sl, matches)
  | e :: l' =>
      if pred e then sl' <~~ appendT sl e ;; filterPredT pred l' sl' (matches + 1)
      else filterPredT pred l' sl matches
  end.

(** Where: leaf1.go:149-154, leaf2.go:201-214, twig.go:271-280, branch.go:287-301. *)
Fixpoint whereT (fuel : nat) (g : gauge) (pred : T -> bool) (p : nat) (depth : nat) {struct fuel} : P (option nat * Z) :=
  match fuel with
  | O => failT Fuel
  | S k =>
      o <~~ loadT p ;;
      match o with
      | OLeaf1 a => if pred a then retT (Some p, 1) else retT (None, 0)
      | OLeaf2 a b =>
          match pred a, pred b with
          | true, true => retT (Some p, 2)
          | true, false => q <~~ allocT (OLeaf1 a) ;; retT (Some q, 1)
          | false, true => q <~~ allocT (OLeaf1 b) ;; retT (Some q, 1)
          | false, false => retT (None, 0)
          end
      | OTwig r len =>
          l <~~ elemsOfT (r, len) ;;
          sl0 <~~ newSliceT [] ;;
          '(sl, m) <~~ filterPredT pred l sl0 0 ;;
          o <~~ newCanonicalT k depth sl ;;
          retT (o, m)
      | OBranch mask data =>
          '(nodes, matches) <~~ parallelT g depth mask
            (fun i =>
               match childP data i with
               | None => failT Panic
               | Some x => whereT k (g_sub i g) pred x (S depth)
               end) ;;
          if ((updateMaskP nodes =? mask)%N && ptrs_eqb nodes data)%bool then retT (Some p, matches)
          else
            q <~~ newBranchT (updateMaskP nodes, nodes) ;;
            o <~~ canonicalBranchT k q ;;
            retT (o, matches)
      end
  end.

(** tree.go:187-197 [With]. *)
Definition tT_with (t : ptree) (v : T) : P ptree :=
  match pt_root t with
  | None => p <~~ allocT (OLeaf1 v) ;; retT (mkPT (Some p) 1)
  | Some p =>
      '(r, m) <~~ withT treeFuel veq (fun _ b => b) p v 0 (newHasher v 0) ;;
      retT (mkPT (Some r) (pt_count t + 1 - m))
  end.

(** tree.go:199-209 [Without]. *)
Definition tT_without (t : ptree) (v : T) : P ptree :=
  match pt_root t with
  | None => retT t
  | Some p =>
      '(o, m) <~~ withoutT treeFuel p v 0 (newHasher v 0) ;;
      retT (mkPT o (pt_count t - m))
  end.

(** tree.go:48-60 [Combine]. *)
Definition tT_combine (args : CombineArgs T) (t u : ptree) : P ptree :=
  match pt_root t, pt_root u with
  | None, _ => retT u
  | _, None => retT t
  | Some p, Some p2 =>
      '(r, m) <~~ combineT treeFuel args p p2 0 ;;
      retT (mkPT (Some r) (pt_count t + pt_count u - m))
  end.

(** tree.go:62-71 [Difference]. *)
Definition tT_difference (g : gauge) (t u : ptree) : P ptree :=
  match pt_root t, pt_root u with
  | Some p, Some p2 =>
      '(o, m) <~~ differenceT treeFuel g p p2 0 ;;
      retT (mkPT o (pt_count t - m))
  | _, _ => retT t
  end.

(** tree.go:92-104 [Intersection]. *)
Definition tT_intersection (g : gauge) (t u : ptree) : P ptree :=
  match pt_root t, pt_root u with
  | Some p, Some p2 =>
      let '(p, p2) := if (pt_count u <? pt_count t)%Z then (p2, p) else (p, p2) in
      '(o, m) <~~ intersectionT treeFuel g p p2 0 ;;
      retT (mkPT o m)
  | _, _ => retT emptyPT
  end.

(** tree.go:177-185 [Where]. *)
Definition tT_where (g : gauge) (pred : T -> bool) (t : ptree) : P ptree :=
  match pt_root t with
  | None => retT t
  | Some p => '(o, m) <~~ whereT treeFuel g pred p 0 ;; retT (mkPT o m)
  end.

(** builder.go:50-64 [Add]. *)
Definition bT_add (b : ptree) (v : T) : P ptree :=
  match pt_root b with
  | None => p <~~ allocT (OLeaf1 v) ;; retT (mkPT (Some p) 1)
  | Some p =>
      '(r, m) <~~ addFastT treeFuel p v 0 (newHasher v 0) ;;
      retT (mkPT (Some r) (pt_count b + (1 - m)))
  end.

(** builder.go:66-77 [Remove]. *)
Definition bT_remove (b : ptree) (v : T) : P ptree :=
  match pt_root b with
  | None => retT b
  | Some p =>
      '(o, m) <~~ removeT treeFuel p v 0 (newHasher v 0) ;;
      retT (mkPT o (pt_count b - m))
  end.

(** tree.go:84-90 [Get]. *)
Definition tT_get (t : ptree) (v : T) : P (option T) :=
  match pt_root t with
  | None => retT None
  | Some p => getT treeFuel p v (newHasher v 0)
  end.

(** ** Programs of commands *)

(** What a goroutine holds: sets, builders, and the answers to its questions so far. *)
Record held := mkHeld { hd_sets : list ptree; hd_builders : list ptree; hd_answers : list (res (option T)) }.

(** A command of HeapProg.v, or a question: Get (set.go:190-192 Has, map.go:90-95 Get), of the set with index [s]. *)
Inductive act : Type := ADo (c : cmd T) | AGet (s : nat) (v : T).

(** As [makeSet] and [changeBuilder] of HeapProg.v. *)
Definition makeSetT (s : held) (m : P ptree) : P held :=
  tryT m (fun r => retT (match r with Ok t => mkHeld (hd_sets s ++ [t]) (hd_builders s) (hd_answers s) | _ => s end)).
Definition changeBuilderT (s : held) (b : nat) (m : P ptree) : P held :=
  tryT m (fun r => retT (match r with Ok t => mkHeld (hd_sets s) (set_nth (hd_builders s) b t) (hd_answers s) | _ => s end)).

(** As [step] of HeapProg.v. *)
Definition stepT (s : held) (a : act) : P held :=
  let set1 i k := match nth_error (hd_sets s) i with Some t => makeSetT s (k t) | None => retT s end in
  let set2 i j k := match nth_error (hd_sets s) i, nth_error (hd_sets s) j with
                    | Some t, Some t' => makeSetT s (k t t') | _, _ => retT s end in
  let bld b k := match nth_error (hd_builders s) b with Some t => changeBuilderT s b (k t) | None => retT s end in
  match a with
  | ADo CNew => retT (mkHeld (hd_sets s) (hd_builders s ++ [emptyPT]) (hd_answers s))
  | ADo (CAdd b v) => bld b (fun t => bT_add t v)
  | ADo (CRemove b v) => bld b (fun t => bT_remove t v)
  | ADo (CFinish b) =>
      match nth_error (hd_builders s) b with
      | Some t => retT (mkHeld (hd_sets s ++ [t]) (set_nth (hd_builders s) b emptyPT) (hd_answers s))
      | None => retT s
      end
  | ADo (CWith i v) => set1 i (fun t => tT_with t v)
  | ADo (CWithout i v) => set1 i (fun t => tT_without t v)
  | ADo (CCombine f i j) => set2 i j (fun t t' => tT_combine (combineArgs (newGauge (pt_count t)) f) t t')
  | ADo (CDifference i j) => set2 i j (fun t t' => tT_difference NonParallel t t')
  | ADo (CIntersection i j) => set2 i j (fun t t' => tT_intersection (newGauge (pt_count t)) t t')
  | ADo (CWhere pred i) => set1 i (fun t => tT_where (newGauge (pt_count t)) pred t)
  | AGet i v =>
      match nth_error (hd_sets s) i with
      | Some t => tryT (tT_get t v) (fun r => retT (mkHeld (hd_sets s) (hd_builders s) (hd_answers s ++ [r])))
      | None => retT s
      end
  end.
Definition actsT (l : list act) (s : held) : P held := foldT stepT s l.

(** The same without interference, as functions on states. *)
Definition commands (l : list act) : list (cmd T) := flat_map (fun a => match a with ADo c => [c] | AGet _ _ => [] end) l.
Definition act1 (x : state (T := T) * list (res (option T))) (a : act) : state * list (res (option T)) :=
  match a with
  | ADo c => (step grow (fst x) c, snd x)
  | AGet i v =>
      match nth_error (st_sets (fst x)) i with
      | Some t => (fst x, snd x ++ [fst (tH_get t v (st_heap (fst x)))])
      | None => x
      end
  end.
Definition alone (l : list act) (st : state (T := T)) : state * list (res (option T)) := fold_left act1 l (st, []).

(** ** Without interference *)

Definition same {A} (t : P A) (m : M A) : Prop := forall h, runT t h = m h.

Lemma runT_try {A B} (t : P A) (k : res A -> P B) h : runT (tryT t k) h = let '(r, h') := runT t h in runT (k r) h'.
Proof. revert h. induction t as [r|X x c IH]; intros h; cbn; [reflexivity|]. destruct (runA x h) as [r h']. apply IH. Qed.

Lemma same_bind {A B} (t : P A) (m : M A) (k : A -> P B) (k' : A -> M B) : same t m -> (forall a, same (k a) (k' a)) ->
  same (bindT t k) (bindM m k').
Proof.
  intros H1 H2 h. unfold bindT, bindM. rewrite runT_try, H1. destruct (m h) as [[a| |] h']; [apply H2|reflexivity|reflexivity].
Qed.
Lemma same_ret {A} (a : A) : same (retT a) (ret a).
Proof. intros h. reflexivity. Qed.
Lemma same_fail {A} (r : res A) : same (failT r) (fail r).
Proof. intros h. reflexivity. Qed.
Lemma same_access {A} (x : access A) : same (Do x Done) (runA x).
Proof. intros h. cbn. destruct (runA x h). reflexivity. Qed.
Lemma same_alloc o : same (allocT o) (alloc o).
Proof. apply (same_access (AAlloc o)). Qed.
Lemma same_load p : same (loadT p) (load p).
Proof. apply (same_access (ALoad p)). Qed.
Lemma same_store p o : same (storeT p o) (store p o).
Proof. apply (same_access (AStore p o)). Qed.
Lemma same_allocArr a : same (allocArrT a) (allocArr a).
Proof. apply (same_access (AAllocArr a)). Qed.
Lemma same_loadArr r : same (loadArrT r) (loadArr r).
Proof. apply (same_access (ALoadArr r)). Qed.
Lemma same_storeArr r i a : same (storeArrT r i a) (storeArr r i a).
Proof. apply (same_access (AStoreArr r i a)). Qed.
Lemma same_countOver n : same (countOverT n) (countOver n).
Proof. apply (same_access (ACountOver n)). Qed.
Lemma same_fold {A S} (f : S -> A -> P S) (f' : S -> A -> M S) l : (forall s a, same (f s a) (f' s a)) ->
  forall s, same (foldT f s l) (foldMM f' s l).
Proof. intros Hf. induction l as [|a l IH]; intros s; cbn; [apply same_ret|apply same_bind; auto]. Qed.

Local Ltac sm1 := first
  [ assumption | apply same_ret | apply same_fail | apply same_alloc | apply same_load | apply same_store | apply same_allocArr
  | apply same_loadArr | apply same_storeArr | apply same_countOver | apply same_fold | apply same_bind
  | match goal with
    | |- same (match ?x with _ => _ end) _ => destruct x
    | |- forall _, _ => intro
    | H : forall _, _ |- same _ _ => apply H
    | H : _ /\ _ |- _ => destruct H
    | |- same _ _ => progress (cbv beta zeta)
    end ].
Local Ltac sm := repeat sm1.

Lemma same_elemsOf sl : same (elemsOfT sl) (elemsOf sl).
Proof. unfold elemsOfT, elemsOf. sm. Qed.
Lemma same_newSlice data : same (newSliceT data) (newSlice data).
Proof. unfold newSliceT, newSlice. sm. Qed.
Lemma same_setSlot sl i v : same (setSlotT sl i v) (setSlot sl i v).
Proof. unfold setSlotT, setSlot. sm. Qed.
Lemma same_append sl v : same (appendT sl v) (append grow sl v).
Proof. unfold appendT, append. sm. Qed.
Lemma same_newTwig sl : same (newTwigT sl) (newTwigH sl).
Proof. apply same_alloc. Qed.
Lemma same_newBranch p : same (newBranchT p) (newBranchH p).
Proof. apply same_alloc. Qed.
Lemma same_emptyBranch : same emptyBranchT emptyBranchH.
Proof. apply same_alloc. Qed.

Local Ltac sm2 := first [ apply same_elemsOf | apply same_newSlice | apply same_setSlot | apply same_append | apply same_newTwig
  | apply same_newBranch | apply same_emptyBranch | sm1 ].
Local Ltac sma := repeat sm2.

Lemma same_newBranchFrom_with addFast addFast' depth sl : (forall p v d h, same (addFast p v d h) (addFast' p v d h)) ->
  same (newBranchFromT_with addFast depth sl) (newBranchFromH_with addFast' depth sl).
Proof. intros H. unfold newBranchFromT_with, newBranchFromH_with. sma. Qed.
Lemma same_addT fuel : forall eq f p v depth h, same (addT fuel eq f p v depth h) (addH grow fuel eq f p v depth h).
Proof.
  induction fuel as [|k IH]; intros eq f p v depth h; cbn [addT addH]; [apply same_fail|].
  repeat first [apply same_newBranchFrom_with | sm2].
Qed.
Lemma same_newBranchFrom fuel depth sl : same (newBranchFromT fuel depth sl) (newBranchFromH grow fuel depth sl).
Proof. apply same_newBranchFrom_with. intros. apply same_addT. Qed.
Lemma same_appendToT fuel : (forall cap p dest, same (appendToT fuel cap p dest) (appendToH fuel cap p dest)) /\
  (forall cap data dest, same (appendAllT fuel cap data dest) (appendAllH fuel cap data dest)).
Proof. induction fuel as [|k [IH1 IH2]]; split; intros cap x dest; cbn [appendToT appendAllT appendToH appendAllH]; sma. Qed.
Lemma same_appendTo fuel cap p dest : same (appendToT fuel cap p dest) (appendToH fuel cap p dest).
Proof. apply same_appendToT. Qed.

Local Ltac sm3 := first [ apply same_addT | apply same_newBranchFrom | apply same_appendTo | sm2 ].
Local Ltac smb := repeat sm3.

Lemma same_canonicalTwig fuel depth p sl : same (canonicalTwigT fuel depth p sl) (canonicalTwigH grow fuel depth p sl).
Proof. unfold canonicalTwigT, canonicalTwigH. smb. Qed.
Lemma same_newCanonical fuel depth sl : same (newCanonicalT fuel depth sl) (newCanonicalH grow fuel depth sl).
Proof. apply same_bind; [apply same_newTwig|intros; apply same_canonicalTwig]. Qed.
Lemma same_canonicalBranch fuel p : same (canonicalBranchT fuel p) (canonicalBranchH grow fuel p).
Proof. unfold canonicalBranchT, canonicalBranchH. repeat first [apply same_newCanonical | sm3]. Qed.
Lemma same_get fuel : forall p v h, same (getT fuel p v h) (getH fuel p v h).
Proof. induction fuel as [|k IH]; intros p v h; cbn [getT getH]; smb. Qed.
Lemma same_cloneSlice sl : same (cloneSliceT sl) (cloneSlice sl).
Proof. unfold cloneSliceT, cloneSlice. smb. Qed.

Local Ltac sm4 := first [ apply same_canonicalTwig | apply same_newCanonical | apply same_canonicalBranch | apply same_cloneSlice | sm3 ].
Local Ltac smc := repeat sm4.

Lemma same_with fuel : forall eq f p v depth h, same (withT fuel eq f p v depth h) (withH grow fuel eq f p v depth h).
Proof. induction fuel as [|k IH]; intros eq f p v depth h; cbn [withT withH]; smc. Qed.
Lemma same_without fuel : forall p v depth h, same (withoutT fuel p v depth h) (withoutH grow fuel p v depth h).
Proof. induction fuel as [|k IH]; intros p v depth h; cbn [withoutT withoutH]; smc. Qed.
Lemma same_newLeaf data : same (newLeafT data) (newLeafH data).
Proof. unfold newLeafT, newLeafH. smc. Qed.
Lemma same_remove fuel : forall p v depth h, same (removeT fuel p v depth h) (removeH grow fuel p v depth h).
Proof.
  induction fuel as [|k IH]; intros p v depth h; cbn [removeT removeH]; [apply same_fail|].
  repeat first [apply same_newLeaf | sm4].
Qed.
Lemma same_parallel g depth mask (f : nat -> P (option nat * Z)) f' : (forall i, same (f i) (f' i)) ->
  same (parallelT g depth mask f) (parallelH g depth mask f').
Proof.
  intros Hf. unfold parallelT, parallelH. generalize (par_order g depth mask) 0 emptyDataP. intros order.
  induction order as [|i order IH]; intros m data; cbn [parallelT_loop parallelH_loop]; [apply same_ret|].
  apply same_bind; [apply Hf|]. intros [r m']. apply IH.
Qed.
Lemma same_combineLeaf21 fuel args depth l0 l1 nd : same (combineLeaf21T fuel args depth l0 l1 nd) (combineLeaf21H grow fuel args depth l0 l1 nd).
Proof. unfold combineLeaf21T, combineLeaf21H. smc. Qed.
Lemma same_combineLeaf1 args a b : same (combineLeaf1T args a b) (combineLeaf1H args a b).
Proof. unfold combineLeaf1T, combineLeaf1H. smc. Qed.
Lemma same_combineLeaf2 fuel args depth l0 l1 n0 n1 :
  same (combineLeaf2T fuel args depth l0 l1 n0 n1) (combineLeaf2H grow fuel args depth l0 l1 n0 n1).
Proof.
  unfold combineLeaf2T, combineLeaf2H, combineLeaf2T_step, combineLeaf2H_step.
  destruct (c_eq args l0 n0), (c_eq args l1 n1), (c_eq args l0 n1), (c_eq args l1 n0); smc.
Qed.
Lemma same_dropped fuel args depth l rest : same (combineTwigT_dropped fuel args depth l rest) (combineTwigH_dropped grow fuel args depth l rest).
Proof. unfold combineTwigT_dropped, combineTwigH_dropped. smc. Qed.
Lemma same_scan fuel args depth ndata : forall sl cloned matches,
  same (combineTwigT_scan fuel args depth sl cloned ndata matches) (combineTwigH_scan grow fuel args depth sl cloned ndata matches).
Proof.
  induction ndata as [|e rest IH]; intros sl cloned matches; cbn [combineTwigT_scan combineTwigH_scan]; [apply same_ret|].
  repeat first [apply same_dropped | sm4].
Qed.
Lemma same_combineTwig fuel args depth sl sl2 : same (combineTwigT fuel args depth sl sl2) (combineTwigH grow fuel args depth sl sl2).
Proof. unfold combineTwigT, combineTwigH. repeat first [apply same_scan | sm4]. Qed.
Lemma same_with2 fuel args p a b depth : same (with2T fuel args p a b depth) (with2H grow fuel args p a b depth).
Proof. unfold with2T, with2H. repeat first [apply same_with | sm4]. Qed.
Lemma same_combine fuel : forall args p p2 depth, same (combineT fuel args p p2 depth) (combineH grow fuel args p p2 depth).
Proof.
  induction fuel as [|k IH]; intros args p p2 depth; cbn [combineT combineH]; [apply same_fail|].
  repeat first [ apply same_combineLeaf1 | apply same_combineLeaf21 | apply same_combineLeaf2 | apply same_combineTwig | apply same_with
               | apply same_with2 | apply same_parallel | sm4 ].
Qed.
Lemma same_has_at fuel p e depth : same (has_atT fuel p e depth) (has_atH fuel p e depth).
Proof. unfold has_atT, has_atH. repeat first [apply same_get | sm4]. Qed.
Lemma same_filterGet fuel keep l p depth : forall sl matches,
  same (filterGetT fuel keep l p depth sl matches) (filterGetH grow fuel keep l p depth sl matches).
Proof. induction l as [|e l IH]; intros sl matches; cbn [filterGetT filterGetH]; repeat first [apply same_has_at | sm4]. Qed.
Lemma same_difference fuel : forall g p p2 depth, same (differenceT fuel g p p2 depth) (differenceH grow fuel g p p2 depth).
Proof.
  induction fuel as [|k IH]; intros g p p2 depth; cbn [differenceT differenceH]; [apply same_fail|].
  repeat first [ apply same_has_at | apply same_filterGet | apply same_without | apply same_parallel | sm4 ].
Qed.
Lemma same_intersectLeaf1 fuel p a p2 depth : same (intersectLeaf1T fuel p a p2 depth) (intersectLeaf1H fuel p a p2 depth).
Proof. unfold intersectLeaf1T, intersectLeaf1H. repeat first [apply same_has_at | sm4]. Qed.
Lemma same_intersectLeaf2 fuel p a b p2 depth : same (intersectLeaf2T fuel p a b p2 depth) (intersectLeaf2H fuel p a b p2 depth).
Proof. unfold intersectLeaf2T, intersectLeaf2H. repeat first [apply same_has_at | sm4]. Qed.
Lemma same_intersection fuel : forall g p p2 depth, same (intersectionT fuel g p p2 depth) (intersectionH grow fuel g p p2 depth).
Proof.
  induction fuel as [|k IH]; intros g p p2 depth; cbn [intersectionT intersectionH]; [apply same_fail|].
  repeat first [ apply same_has_at | apply same_filterGet | apply same_intersectLeaf1 | apply same_intersectLeaf2 | apply same_parallel | sm4 ].
Qed.
Lemma same_filterPred pred l : forall sl matches, same (filterPredT pred l sl matches) (filterPredH grow pred l sl matches).
Proof. induction l as [|e l IH]; intros sl matches; cbn [filterPredT filterPredH]; smc. Qed.
Lemma same_where fuel : forall g pred p depth, same (whereT fuel g pred p depth) (whereH grow fuel g pred p depth).
Proof.
  induction fuel as [|k IH]; intros g pred p depth; cbn [whereT whereH]; [apply same_fail|].
  repeat first [ apply same_filterPred | apply same_parallel | sm4 ].
Qed.

Local Ltac smt := repeat first [ apply same_with | apply same_without | apply same_combine | apply same_difference | apply same_intersection
  | apply same_where | apply same_addT | apply same_remove | apply same_get | sm1 ].
Lemma same_tT_with t v : same (tT_with t v) (tH_with grow t v).
Proof. unfold tT_with, tH_with. smt. Qed.
Lemma same_tT_without t v : same (tT_without t v) (tH_without grow t v).
Proof. unfold tT_without, tH_without. smt. Qed.
Lemma same_tT_combine args t u : same (tT_combine args t u) (tH_combine grow args t u).
Proof. unfold tT_combine, tH_combine. smt. Qed.
Lemma same_tT_difference g t u : same (tT_difference g t u) (tH_difference grow g t u).
Proof. unfold tT_difference, tH_difference. smt. Qed.
Lemma same_tT_intersection g t u : same (tT_intersection g t u) (tH_intersection grow g t u).
Proof. unfold tT_intersection, tH_intersection. smt. Qed.
Lemma same_tT_where g pred t : same (tT_where g pred t) (tH_where grow g pred t).
Proof. unfold tT_where, tH_where. smt. Qed.
Lemma same_bT_add t v : same (bT_add t v) (bH_add grow t v).
Proof. unfold bT_add, bH_add, addFastT, addFastH. smt. Qed.
Lemma same_bT_remove t v : same (bT_remove t v) (bH_remove grow t v).
Proof. unfold bT_remove, bH_remove. smt. Qed.
Lemma same_tT_get t v : same (tT_get t v) (tH_get t v).
Proof. unfold tT_get, tH_get. smt. Qed.

(** What a goroutine holds in a state. *)
Definition heldIn (x : state (T := T) * list (res (option T))) : held := mkHeld (st_sets (fst x)) (st_builders (fst x)) (snd x).

Lemma runT_makeSet st ans (t : P ptree) m : same t m ->
  runT (makeSetT (heldIn (st, ans)) t) (st_heap st) = (Ok (heldIn (makeSet st m, ans)), st_heap (makeSet st m)).
Proof. intros H. unfold makeSetT, makeSet. rewrite runT_try, H. destruct (m (st_heap st)) as [[p| |] h']; reflexivity. Qed.
Lemma runT_changeBuilder st ans b (t : P ptree) m : same t m ->
  runT (changeBuilderT (heldIn (st, ans)) b t) (st_heap st) = (Ok (heldIn (changeBuilder st b m, ans)), st_heap (changeBuilder st b m)).
Proof. intros H. unfold changeBuilderT, changeBuilder. rewrite runT_try, H. destruct (m (st_heap st)) as [[p| |] h']; reflexivity. Qed.

Lemma getH_heap fuel : forall p v hs (h : heap), snd (getH fuel p v hs h) = h.
Proof.
  induction fuel as [|k IH]; intros p v hs h; [reflexivity|]. cbn [getH]. unfold bindM, load.
  destruct (nth_error (h_objs h) p) as [[a|a b|r len|m d]|]; try reflexivity.
  - unfold elemsOf, bindM, loadArr. cbn [fst]. destruct (nth_error (h_arrs h) r); reflexivity.
  - destruct (childP d (h_hash hs)); [apply IH|reflexivity].
Qed.
Lemma tH_get_heap t v (h : heap) : snd (tH_get t v h) = h.
Proof. unfold tH_get. destruct (pt_root t); [apply getH_heap|reflexivity]. Qed.

Lemma runT_step x a : runT (stepT (heldIn x) a) (st_heap (fst x)) = (Ok (heldIn (act1 x a)), st_heap (fst (act1 x a))).
Proof.
  destruct x as [st ans]. destruct a as [[|b v|b v|b|s v|s v|f s u|s u|s u|pred s]|s v]; cbn [stepT act1 step fst snd heldIn hd_sets hd_builders hd_answers];
    try reflexivity;
    try (destruct (nth_error (st_builders st) b) as [t|] eqn:Eb; [|reflexivity]);
    try (destruct (nth_error (st_sets st) s) as [t|] eqn:Es; [|reflexivity]);
    try (destruct (nth_error (st_sets st) u) as [t'|] eqn:Eu; [|reflexivity]).
  - apply (runT_changeBuilder st ans). apply same_bT_add.
  - apply (runT_changeBuilder st ans). apply same_bT_remove.
  - reflexivity.
  - apply (runT_makeSet st ans). apply same_tT_with.
  - apply (runT_makeSet st ans). apply same_tT_without.
  - apply (runT_makeSet st ans). apply same_tT_combine.
  - apply (runT_makeSet st ans). apply same_tT_difference.
  - apply (runT_makeSet st ans). apply same_tT_intersection.
  - apply (runT_makeSet st ans). apply same_tT_where.
  - rewrite runT_try, same_tT_get. assert (H := tH_get_heap t v (st_heap st)). destruct (tH_get t v (st_heap st)) as [r h'].
    cbn [fst snd] in *. subst h'. reflexivity.
Qed.

(** Without interference, a goroutine does what its program does. *)
Theorem runT_acts l : forall x, runT (actsT l (heldIn x)) (st_heap (fst x)) = (Ok (heldIn (fold_left act1 l x)), st_heap (fst (fold_left act1 l x))).
Proof.
  induction l as [|a l IH]; intros x; [reflexivity|]. unfold actsT. cbn [foldT fold_left]. unfold bindT. rewrite runT_try, runT_step. apply IH.
Qed.

Lemma alone_run l : forall x, fst (fold_left act1 l x) = run grow (commands l) (fst x).
Proof.
  induction l as [|a l IH]; intros x; [reflexivity|]. cbn [fold_left]. rewrite IH. destruct a as [c|i v]; cbn [act1 commands flat_map app].
  - reflexivity.
  - destruct (nth_error (st_sets (fst x)) i); reflexivity.
Qed.

End Steps.

Arguments Done {T A} _.
Arguments Do {T A X} _ _.
