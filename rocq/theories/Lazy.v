(** * Lazy: the lazy package (lazy/set*.go).

    A lazy set is an immutable expression; the only mutable state is the pointer inside each memoSet
    (set_memo.go:10-12), which starts at the source expression and is later overwritten with a frozen copy.
    All methods are written as programs over that shared state: each atomic load or store of such a pointer is
    a separate step, so that the same definitions can be run alone ([exec]) or interleaved with other
    goroutines ([poolStep]). *)
From Verif Require Import Base Bits Env Node Iter Tree SetApi.
Local Open Scope Z_scope.

(** ** Expressions *)

(** The implementations of the interface lazy/set.go:13-110 [Set]. A [memoSet] is its address [p] together with
    the expression its pointer started with; whether the pointer still points there is recorded in the heap.
    The element type [T] stands for [any]. Predicates and mappers (set.go:3-9) are pure, as their
    documentation demands. *)
Inductive lset (T : Type) : Type :=
| LEmpty                                              (* set_empty.go:9 [EmptySet] *)
| LFrozen (s : set T)                                 (* set_frozen.go:5-8 [frozenSet] *)
| LMemo (p : nat) (src : lset T)                      (* set_memo.go:10-12 [memoSet] *)
| LUnion (a b : lset T)                               (* set_union.go:3-6 [unionSet] *)
| LInter (a b : lset T)                               (* set_intersection.go:3-6 [intersectionSet] *)
| LDiff (a b : lset T)                                (* set_diff.go:3-6 [differenceSet] *)
| LWhere (src : lset T) (pred : T -> bool)            (* set_where.go:3-7 [whereSet] *)
| LMap (src : lset T) (m : T -> T)                    (* set_transform.go:3-7 [mapperSet] *)
| LPow (src : lset T).                                (* set_powerset.go:9-12 [powerSet] *)
Arguments LEmpty {T}.
Arguments LFrozen {T} _.
Arguments LMemo {T} _ _.
Arguments LUnion {T} _ _.
Arguments LInter {T} _ _.
Arguments LDiff {T} _ _.
Arguments LWhere {T} _ _.
Arguments LMap {T} _ _.
Arguments LPow {T} _.

(** The implementations of lazy/set.go:95-98 [SetIterator]. *)
Inductive liter (T : Type) : Type :=
| ItEmpty                                             (* set_empty.go:106 [emptySetIterator] *)
| ItFrozen (i : iter T)                               (* the iterator of the frozen set, set_frozen.go:69-71 *)
| ItUnion (i : liter T) (b : option (lset T))         (* set_union.go:45-48 *)
| ItInter (i : liter T) (b : lset T)                  (* set_intersection.go:40-43 *)
| ItDiff (i : liter T) (b : lset T)                   (* set_diff.go:35-38 *)
| ItWhere (i : liter T) (pred : T -> bool)            (* set_where.go:30-33 *)
| ItMap (i : liter T) (m : T -> T)                    (* set_transform.go:19-22 *)
| ItPow (i : liter T) (fin mask : N) (elems : list T) (value : set T)   (* set_powerset.go:72-78 *)
| ItCache (i : liter T) (p : nat) (seen : setBuilder T).                (* set_memo.go:40-44 *)
Arguments ItEmpty {T}.
Arguments ItFrozen {T} _.
Arguments ItUnion {T} _ _.
Arguments ItInter {T} _ _.
Arguments ItDiff {T} _ _.
Arguments ItWhere {T} _ _.
Arguments ItMap {T} _ _.
Arguments ItPow {T} _ _ _ _ _.
Arguments ItCache {T} _ _ _.

(** How lazy sets and frozen sets appear as elements of type [any]: [box s] is the [*frozenSet] holding [s],
    [emptyBox] is [EmptySet{}], and [unbox v] is the type assertion [v.(frozen.Set[any])]. *)
Class Boxes (T : Type) := {
  box : set T -> T;
  emptyBox : T;
  unbox : T -> option (set T);
}.

(** ** Programs over the memo pointers *)

(** A computation of the lazy package: it returns, panics or runs out of the model's recursion fuel, or does
    one atomic action on a memo pointer and goes on. [Load] gives [None] while the pointer is at the source
    and [Some f] when it is at the frozen copy [f]. *)
Inductive prog (T A : Type) : Type :=
| Ret (a : A)
| PPanic
| PFuel
| Load (p : nat) (k : option (set T) -> prog T A)     (* set_memo.go:29-31 [getSet] *)
| Store (p : nat) (f : set T) (k : prog T A)          (* set_memo.go:54 [StorePointer] *)
| Alloc (src : lset T) (k : nat -> prog T A).         (* set_memo.go:19-21 *)
Arguments Ret {T A} _.
Arguments PPanic {T A}.
Arguments PFuel {T A}.
Arguments Load {T A} _ _.
Arguments Store {T A} _ _ _.
Arguments Alloc {T A} _ _.

Fixpoint pbind {T A B} (m : prog T A) (k : A -> prog T B) : prog T B :=
  match m with
  | Ret a => k a
  | PPanic => PPanic
  | PFuel => PFuel
  | Load p j => Load p (fun o => pbind (j o) k)
  | Store p f j => Store p f (pbind j k)
  | Alloc src j => Alloc src (fun p => pbind (j p) k)
  end.

Notation "x <~ m ;; k" := (pbind m (fun x => k))
  (at level 61, m at next level, right associativity).
Notation "' p <~ m ;; k" := (pbind m (fun x => match x with p => k end))
  (at level 61, p pattern, m at next level, right associativity).

(** Using a function that does not touch the memo pointers. *)
Definition lift {T A} (r : res A) : prog T A :=
  match r with Ok a => Ret a | Panic => PPanic | Fuel => PFuel end.

(** The heap: the state of each memo pointer, by address. *)
Definition lheap (T : Type) : Type := list (option (set T)).

(** One atomic action of a program, [None] when the program is at its end. Reading a pointer that was never
    allocated does not occur; the model treats it as a panic. *)
Definition pstep {T A} (m : prog T A) (h : lheap T) : option (prog T A * lheap T) :=
  match m with
  | Load p k => match nth_error h p with Some o => Some (k o, h) | None => Some (PPanic, h) end
  | Store p f k => Some (k, set_nth h p (Some f))
  | Alloc src k => Some (k (length h), h ++ [None])
  | _ => None
  end.

(** Running a program with no other goroutine active. *)
Fixpoint exec {T A} (m : prog T A) (h : lheap T) : res (A * lheap T) :=
  match m with
  | Ret a => Ok (a, h)
  | PPanic => Panic
  | PFuel => Fuel
  | Load p k => match nth_error h p with Some o => exec (k o) h | None => Panic end
  | Store p f k => exec k (set_nth h p (Some f))
  | Alloc src k => exec (k (length h)) (h ++ [None])
  end.

(** Several goroutines: some goroutine takes one action. *)
Definition pool (T A : Type) : Type := (list (prog T A) * lheap T)%type.
Definition poolStep {T A} (i : nat) (s : pool T A) : pool T A :=
  match nth_error (fst s) i with
  | Some m => match pstep m (snd s) with
              | Some (m', h') => (set_nth (fst s) i m', h')
              | None => s
              end
  | None => s
  end.
(** A schedule names the goroutine that takes each step. *)
Definition poolRun {T A} (sched : list nat) (s : pool T A) : pool T A := fold_left (fun s i => poolStep i s) sched s.

Section Lazy.
Context {E : Env} {T : Type} {K : Key T} {B : Boxes T}.
Notation lset := (lset T).
Notation liter := (liter T).
Notation prog := (prog T).

(** set_memo.go:29-31: what the pointer of a memoSet points to. *)
Definition cur (src : lset) (o : option (set T)) : lset :=
  match o with Some f => LFrozen f | None => src end.

(** The object whose method runs when a method of [e] is called: a memoSet forwards to what it points to
    (set_memo.go:62-86). *)
Definition deref (e : lset) : prog lset :=
  match e with LMemo p src => Load p (fun o => Ret (cur src o)) | _ => Ret e end.

(** set_memo.go:14-23 [memo]. *)
Definition l_memo (src : lset) : prog lset :=
  match src with
  | LMemo _ _ | LFrozen _ => Ret src
  | _ => Alloc src (fun p => Ret (LMemo p src))
  end.

(** ** The Fast methods *)

(** [FastIsEmpty], [None] for ok = false: set_base.go:26-28, set_empty.go:15-17, set_frozen.go:20-22,
    set_memo.go:63, set_where.go:15-20, set_powerset.go:24-26. *)
Fixpoint l_fastIsEmpty (e : lset) : prog (option bool) :=
  match e with
  | LEmpty => Ret (Some true)
  | LFrozen s => Ret (Some (s_isEmpty s))
  | LMemo p src => Load p (fun o => match o with Some f => Ret (Some (s_isEmpty f)) | None => l_fastIsEmpty src end)
  | LWhere src _ => r <~ l_fastIsEmpty src ;; Ret (match r with Some true => Some true | _ => None end)
  | LPow src => l_fastIsEmpty src
  | LUnion _ _ | LInter _ _ | LDiff _ _ | LMap _ _ => Ret None
  end.

(** [1 << uint(count)] as a 64-bit [int] for a count below 64 (set_powerset.go:30,38,48). *)
Definition pow2 (count : Z) : prog Z :=
  if count <? 64 then Ret (int64 (2 ^ count)) else PPanic.

(** [FastCount]: set_base.go:37-39, set_empty.go:23-25, set_frozen.go:24-26, set_memo.go:65,
    set_powerset.go:35-43. *)
Fixpoint l_fastCount (e : lset) : prog (option Z) :=
  match e with
  | LEmpty => Ret (Some 0)
  | LFrozen s => Ret (Some (s_count s))
  | LMemo p src => Load p (fun o => match o with Some f => Ret (Some (s_count f)) | None => l_fastCount src end)
  | LPow src =>
      r <~ l_fastCount src ;;
      match r with Some c => n <~ pow2 c ;; Ret (Some n) | None => Ret None end
  | _ => Ret None
  end.

(** [FastHas]: set_base.go:96-98, set_empty.go:58-60, set_frozen.go:35-37, set_memo.go:73,
    set_union.go:34-39 and set_diff.go:24-29 (both ask [a] twice), set_intersection.go:24-34. *)
Fixpoint l_fastHas (e : lset) (el : T) : prog (option bool) :=
  match e with
  | LEmpty => Ret (Some false)
  | LFrozen s => b <~ lift (s_has s el) ;; Ret (Some b)
  | LMemo p src =>
      Load p (fun o => match o with
                       | Some f => b <~ lift (s_has f el) ;; Ret (Some b)
                       | None => l_fastHas src el
                       end)
  | LUnion a _ | LDiff a _ =>
      r <~ l_fastHas a el ;;
      match r with Some b => Ret (Some b) | None => l_fastHas a el end
  | LInter a b =>
      r1 <~ l_fastHas a el ;;
      match r1 with
      | Some false => Ret (Some false)
      | _ =>
          r2 <~ l_fastHas b el ;;
          match r1, r2 with
          | _, Some false => Ret (Some false)
          | Some x, Some y => Ret (Some (x && y)%bool)
          | _, _ => Ret None
          end
      end
  | _ => Ret None
  end.

(** ** Iterators *)

(** [Range]: set_empty.go:66-68, set_frozen.go:69-71, set_memo.go:33-38 (two loads), set_union.go:41-43,
    set_intersection.go:36-38, set_diff.go:31-33, set_where.go:26-28, set_transform.go:15-17,
    set_powerset.go:64-70. *)
Fixpoint l_range (e : lset) : prog liter :=
  match e with
  | LEmpty => Ret ItEmpty
  | LFrozen s => Ret (ItFrozen (s_range s))
  | LMemo p src =>
      Load p (fun o => match o with
        | Some f => Ret (ItFrozen (s_range f))
        | None =>
            i <~ Load p (fun o' => match o' with
                                   | Some f => Ret (ItFrozen (s_range f))
                                   | None => l_range src
                                   end) ;;
            Ret (ItCache i p (mkSB emptyTree))
        end)
  | LUnion a b => i <~ l_range a ;; Ret (ItUnion i (Some b))
  | LInter a b => i <~ l_range a ;; Ret (ItInter i b)
  | LDiff a b => i <~ l_range a ;; Ret (ItDiff i b)
  | LWhere src pred => i <~ l_range src ;; Ret (ItWhere i pred)
  | LMap src m => i <~ l_range src ;; Ret (ItMap i m)
  | LPow src => i <~ l_range src ;; Ret (ItPow i 1 (2 ^ 64 - 1) [] s_empty)
  end.

(** [Value]: set_empty.go:112-114, set_union.go:63-65, set_intersection.go:56-58, set_diff.go:51-53,
    set_where.go:44-46, set_transform.go:28-30, set_powerset.go:104-106, set_memo.go:58-60. *)
Fixpoint l_value (it : liter) : res T :=
  match it with
  | ItEmpty => Panic
  | ItFrozen i => i_value i
  | ItUnion i _ | ItInter i _ | ItDiff i _ | ItWhere i _ | ItCache i _ _ => l_value i
  | ItMap i m => rmap m (l_value i)
  | ItPow _ _ _ _ value => Ok (box value)
  end.

(** set_powerset.go:93-100: the subset after a step of the mask. *)
Definition pow_flip (mask : N) (elems : list T) (value : set T) : res (set T) :=
  let flip := bi_index mask in
  match nth_error elems flip with
  | None => Ok value
  | Some e => if bi_has mask (flip + 1) then s_without value e else s_with value e
  end.

(** [Next] and [Has] call each other: the iterators of intersections and differences ask [b.Has], and the
    [Has] of mapped sets and power sets iterates. All loops are bounded by the fuel [n]; the wrappers
    [l_next] and [l_has] below supply enough.

    [next]: set_empty.go:108-110, set_union.go:50-61, set_intersection.go:45-54, set_diff.go:40-49,
    set_where.go:35-42, set_transform.go:24-26, set_powerset.go:80-102, set_memo.go:46-56.

    [has]: set_base.go:84-94, set_empty.go:54-56, set_memo.go:72, set_union.go:30-32,
    set_intersection.go:20-22, set_diff.go:20-22, set_where.go:22-24, set_powerset.go:59-62.

    [hasLoop] is the loop of set_base.go:88-93 and [subLoop] that of set_frozen.go:60-66. *)
Fixpoint next (n : nat) (it : liter) : prog (bool * liter) :=
  match n with
  | O => PFuel
  | S k =>
      match it with
      | ItEmpty => Ret (false, ItEmpty)
      | ItFrozen i => '(b, i') <~ lift (i_next i) ;; Ret (b, ItFrozen i')
      | ItUnion i ob =>
          '(ok, i') <~ next k i ;;
          if (ok : bool) then Ret (true, ItUnion i' ob)
          else match ob with
               | None => Ret (false, ItUnion i' None)
               | Some b => j <~ l_range b ;; next k (ItUnion j None)
               end
      | ItInter i b =>
          '(ok, i') <~ next k i ;;
          if (ok : bool) then
            v <~ lift (l_value i') ;;
            h <~ has k b v ;;
            if (h : bool) then Ret (true, ItInter i' b) else next k (ItInter i' b)
          else Ret (false, ItInter i' b)
      | ItDiff i b =>
          '(ok, i') <~ next k i ;;
          if (ok : bool) then
            v <~ lift (l_value i') ;;
            h <~ has k b v ;;
            if (h : bool) then next k (ItDiff i' b) else Ret (true, ItDiff i' b)
          else Ret (false, ItDiff i' b)
      | ItWhere i pred =>
          '(ok, i') <~ next k i ;;
          if (ok : bool) then
            v <~ lift (l_value i') ;;
            if pred v then Ret (true, ItWhere i' pred) else next k (ItWhere i' pred)
          else Ret (false, ItWhere i' pred)
      | ItMap i m => '(ok, i') <~ next k i ;; Ret (ok, ItMap i' m)
      | ItPow i fin mask elems value =>
          let mask := wrap 64 (mask + 1)%N in
          if (mask <? fin)%N then
            value' <~ lift (pow_flip mask elems value) ;; Ret (true, ItPow i fin mask elems value')
          else if (fin <? mask)%N then PPanic
          else
            '(ok, i') <~ next k i ;;
            if (ok : bool) then
              v <~ lift (l_value i') ;;
              value' <~ lift (pow_flip mask (elems ++ [v]) value) ;;
              Ret (true, ItPow i' (wshl 64 fin 1) mask (elems ++ [v]) value')
            else Ret (false, ItPow i' fin mask elems value)
      | ItCache i p seen =>
          '(ok, i') <~ next k i ;;
          if (ok : bool) then
            v <~ lift (l_value i') ;;
            h <~ lift (sb_has seen v) ;;
            if (h : bool) then next k (ItCache i' p seen)
            else seen' <~ lift (sb_add seen v) ;; Ret (true, ItCache i' p seen')
          else
            let '(f, seen') := sb_finish seen in
            Store p f (Ret (false, ItCache i' p seen'))
      end
  end
with has (n : nat) (e : lset) (el : T) : prog bool :=
  match n with
  | O => PFuel
  | S k =>
      match e with
      | LEmpty => Ret false
      | LFrozen s => lift (s_has s el)
      | LMemo p src => Load p (fun o => match o with Some f => lift (s_has f el) | None => has k src el end)
      | LUnion a b | LDiff a b => x <~ has k a el ;; if (x : bool) then Ret true else has k b el
      | LInter a b => x <~ has k a el ;; if (x : bool) then has k b el else Ret false
      | LWhere src pred => if pred el then has k src el else Ret false
      | LMap src m => i <~ l_range (LMap src m) ;; hasLoop k i el
      | LPow src =>
          match unbox el with
          | None => Ret false
          | Some ss =>
              match src with
              | LMemo p src' =>
                  Load p (fun o => match o with
                    | Some f => subLoop k ss (s_count ss) (ItFrozen (s_range f))
                    | None => i <~ l_range src ;; subLoop k ss (s_count ss) i
                    end)
              | _ => i <~ l_range src ;; subLoop k ss (s_count ss) i
              end
          end
      end
  end
with hasLoop (n : nat) (it : liter) (el : T) : prog bool :=
  match n with
  | O => PFuel
  | S k =>
      '(ok, it') <~ next k it ;;
      if (ok : bool) then
        v <~ lift (l_value it') ;;
        if veq el v then Ret true else hasLoop k it' el
      else Ret false
  end
with subLoop (n : nat) (ss : set T) (count : Z) (it : liter) : prog bool :=
  match n with
  | O => PFuel
  | S k =>
      if 0 <? count then
        '(ok, it') <~ next k it ;;
        if (ok : bool) then
          v <~ lift (l_value it') ;;
          x <~ lift (s_has ss v) ;;
          subLoop k ss (if (x : bool) then count - 1 else count) it'
        else Ret (count =? 0)
      else Ret (count =? 0)
  end.

(** ** Recursion fuel *)

(** At least as many values as any iteration over the set gives. *)
Fixpoint bound (e : lset) : nat :=
  match e with
  | LEmpty => 0
  | LFrozen s => Z.to_nat (s_count s)
  | LMemo _ src => bound src
  | LUnion a b => bound a + bound b
  | LInter a _ | LDiff a _ => bound a
  | LWhere src _ | LMap src _ => bound src
  | LPow src => 2 ^ bound src
  end%nat.

(** Enough fuel for [has], and for [next] on any iterator over the set. *)
Fixpoint cost (e : lset) : nat :=
  match e with
  | LEmpty | LFrozen _ => 1
  | LMemo _ src => 2 + bound src + cost src
  | LUnion a b => 3 + cost a + cost b
  | LInter a b | LDiff a b => 2 + bound a + cost a + cost b
  | LWhere src _ => 2 + bound src + cost src
  | LMap src _ => 3 + bound src + cost src
  | LPow src => 3 + bound src + cost src
  end%nat.

(** At least as many values as the iterator has yet to give. *)
Fixpoint rem (it : liter) : nat :=
  match it with
  | ItEmpty => 0
  | ItFrozen i => length (remaining i)
  | ItUnion i ob => rem i + match ob with Some b => bound b | None => 0 end
  | ItInter i _ | ItDiff i _ | ItWhere i _ | ItMap i _ | ItCache i _ _ => rem i
  | ItPow i fin mask _ _ => N.to_nat fin * 2 ^ rem i - N.to_nat (wrap 64 (mask + 1))
  end%nat.

(** Enough fuel for [next]. *)
Fixpoint icost (it : liter) : nat :=
  match it with
  | ItEmpty | ItFrozen _ => 1
  | ItUnion i ob => 2 + icost i + match ob with Some b => 1 + cost b | None => 0 end
  | ItInter i b | ItDiff i b => 2 + rem i + icost i + cost b
  | ItWhere i _ | ItCache i _ _ => 2 + rem i + icost i
  | ItMap i _ | ItPow i _ _ _ _ => 1 + icost i
  end%nat.

(** ** The interface *)

(** [Next]. *)
Definition l_next (it : liter) : prog (bool * liter) := next (icost it) it.
(** [Has]. *)
Definition l_has (e : lset) (el : T) : prog bool := has (cost e) e el.

(** [for i := s.Range(); i.Next(); { ... i.Value() ... }]: the values seen. *)
Fixpoint l_drain (n : nat) (it : liter) : prog (list T) :=
  match n with
  | O => PFuel
  | S k =>
      '(ok, it') <~ l_next it ;;
      if (ok : bool) then
        v <~ lift (l_value it') ;;
        l <~ l_drain k it' ;; Ret (v :: l)
      else Ret []
  end.
Definition l_toList (e : lset) : prog (list T) := it <~ l_range e ;; l_drain (S (rem it)) it.

(** set_base.go:45-48: the counting loop. *)
Fixpoint countLoop (k : nat) (it : liter) (n limit : Z) : prog Z :=
  if n <? limit then
    match k with
    | O => PFuel
    | S k =>
        '(ok, it') <~ l_next it ;;
        if (ok : bool) then countLoop k it' (n + 1) limit else Ret n
    end
  else Ret n.

(** [CountUpTo] after [FastCountUpTo] has answered [r]: set_base.go:41-50. *)
Definition base_countUpTo (r : option Z) (range : prog liter) (limit : Z) : prog Z :=
  match r with
  | Some c => Ret c
  | None => it <~ range ;; countLoop (S (rem it)) it 0 limit
  end.

(** set_frozen.go:28-33. *)
Definition upTo (n limit : Z) : Z := if n <? limit then n else limit.

(** [FastCountUpTo] ([fast] = true) and [CountUpTo] ([fast] = false, then the result is never [None]).
    set_base.go:41-54, set_empty.go:27-33, set_frozen.go:28-33, set_memo.go:66,84-86, set_union.go:14-28,
    set_powerset.go:45-57. *)
Fixpoint l_countUpTo_ (fast : bool) (e : lset) (limit : Z) : prog (option Z) :=
  match e with
  | LEmpty => Ret (Some 0)
  | LFrozen s => Ret (Some (upTo (s_count s) limit))
  | LMemo p src =>
      Load p (fun o => match o with
                       | Some f => Ret (Some (upTo (s_count f) limit))
                       | None => l_countUpTo_ fast src limit
                       end)
  | LUnion a b =>
      r <~ (ea <~ l_fastIsEmpty a ;;
            match ea with
            | Some true => l_countUpTo_ false b limit
            | _ =>
                eb <~ l_fastIsEmpty b ;;
                match eb with
                | Some true => l_countUpTo_ false a limit
                | _ =>
                    ca <~ l_countUpTo_ true a limit ;;
                    if match ca with Some c => c =? limit | None => false end then Ret ca
                    else
                      cb <~ l_countUpTo_ true b limit ;;
                      if match cb with Some c => c =? limit | None => false end then Ret cb
                      else Ret None
                end
            end) ;;
      if fast then Ret r else c <~ base_countUpTo r (l_range e) limit ;; Ret (Some c)
  | LPow src =>
      r <~ (c <~ l_fastCount src ;;
            match c with
            | Some c => n <~ pow2 c ;; Ret (Some (upTo n limit))
            | None => Ret None
            end) ;;
      if fast then Ret r else c <~ base_countUpTo r (l_range e) limit ;; Ret (Some c)
  | LInter _ _ | LDiff _ _ | LWhere _ _ | LMap _ _ =>
      if fast then Ret None else c <~ base_countUpTo None (l_range e) limit ;; Ret (Some c)
  end.
(** [FastCountUpTo]. *)
Definition l_fastCountUpTo (e : lset) (limit : Z) : prog (option Z) := l_countUpTo_ true e limit.
(** [CountUpTo]. *)
Definition l_countUpTo (e : lset) (limit : Z) : prog Z :=
  r <~ l_countUpTo_ false e limit ;; match r with Some c => Ret c | None => PPanic end.

(** set_base.go:11 [maxInt]. *)
Definition maxInt : Z := 2 ^ 63 - 1.

(** [Count]: set_base.go:30-35, set_empty.go:19-21, set_memo.go:64, set_powerset.go:28-33. *)
Fixpoint l_count (e : lset) : prog Z :=
  match e with
  | LEmpty => Ret 0
  | LFrozen s => Ret (s_count s)
  | LMemo p src => Load p (fun o => match o with Some f => Ret (s_count f) | None => l_count src end)
  | LPow src => c <~ l_count src ;; pow2 c
  | _ => l_countUpTo e maxInt
  end.

(** [IsEmpty]: set_base.go:19-24, set_empty.go:11-13, set_memo.go:62, set_powerset.go:20-22. *)
Fixpoint l_isEmpty (e : lset) : prog bool :=
  match e with
  | LEmpty => Ret true
  | LFrozen s => Ret (s_isEmpty s)
  | LMemo p src => Load p (fun o => match o with Some f => Ret (s_isEmpty f) | None => l_isEmpty src end)
  | LPow src => l_isEmpty src
  | _ =>
      r <~ l_fastIsEmpty e ;;
      match r with
      | Some b => Ret b
      | None => it <~ l_range e ;; '(ok, _) <~ l_next it ;; Ret (negb ok)
      end
  end.

(** set_base.go:56-63 [Freeze] for a receiver that is neither a memoSet nor a frozenSet nor EmptySet. *)
Definition base_freeze (e : lset) : prog lset :=
  Alloc e (fun p =>
    _ <~ l_toList (LMemo p e) ;;
    Load p (fun o => Ret (cur e o))).

(** [Freeze]: set_base.go:56-63, set_empty.go:35-37, set_memo.go:67. *)
Fixpoint l_freeze (e : lset) : prog lset :=
  match e with
  | LEmpty => Ret (LFrozen s_empty)
  | LFrozen s => Ret (LFrozen s)
  | LMemo p src => Load p (fun o => match o with Some f => Ret (LFrozen f) | None => l_freeze src end)
  | _ => base_freeze e
  end.

(** set_base.go:12 [hashSeed]. *)
Definition hashSeed : N := 624409645898692063%N.

(** [Hash]: set_base.go:76-82, set_empty.go:50-52, set_memo.go:68. *)
Fixpoint l_hash (e : lset) (seed : N) : prog N :=
  match e with
  | LEmpty => Ret (env_uintptr hashSeed seed)
  | LMemo p src =>
      Load p (fun o => match o with
        | Some f => l <~ l_toList (LFrozen f) ;; Ret (fold_left (fun h v => vhash v h) l (env_uintptr hashSeed seed))
        | None => l_hash src seed
        end)
  | _ => l <~ l_toList e ;; Ret (fold_left (fun h v => vhash v h) l (env_uintptr hashSeed seed))
  end.

(** set_frozen.go:44-50: the loop of [EqualSet] and the test after it. *)
Fixpoint equalLoop (k : nat) (s : set T) (n : Z) (it : liter) : prog bool :=
  if 0 <? n then
    match k with
    | O => PFuel
    | S k =>
        '(ok, it') <~ l_next it ;;
        if (ok : bool) then
          v <~ lift (l_value it') ;;
          x <~ lift (s_has s v) ;;
          if (x : bool) then equalLoop k s (n - 1) it' else Ret false
        else Ret (n =? 0)
    end
  else '(ok, _) <~ l_next it ;; Ret ((n =? 0) && negb ok)%bool.

(** set_frozen.go:39-51 [EqualSet]. *)
Definition frozen_equalSet (s : set T) (t : lset) : prog bool :=
  match t with
  | LFrozen f => lift (s_equal s f)
  | _ => it <~ l_range t ;; equalLoop (S (rem it)) s (s_count s) it
  end.

(** [s.Freeze().Equal(t.Freeze())] and [s.Freeze().IsSubsetOf(t.Freeze())] (set_base.go:72-74, 100-102): the
    results of Freeze are frozenSets (theorem C36_freeze_partial); the model treats anything else as a panic. *)
Definition freezeBoth (s t : lset) (k : set T -> lset -> prog bool) : prog bool :=
  s' <~ l_freeze s ;;
  t' <~ l_freeze t ;;
  match s' with LFrozen f => k f t' | _ => PPanic end.

(** [EqualSet]: set_base.go:72-74, set_empty.go:46-48, set_frozen.go:39-51, set_memo.go:70. *)
Fixpoint l_equalSet (e t : lset) : prog bool :=
  match e with
  | LEmpty => l_isEmpty t
  | LFrozen s => frozen_equalSet s t
  | LMemo p src => Load p (fun o => match o with Some f => frozen_equalSet f t | None => l_equalSet src t end)
  | _ => freezeBoth e t frozen_equalSet
  end.

(** [Equal] with an argument whose dynamic type is a lazy set: set_base.go:65-70, set_empty.go:39-44 (the argument
    is compared with itself), set_memo.go:69. (With any other argument it answers false.) *)
Fixpoint l_equal (e t : lset) : prog bool :=
  match e with
  | LEmpty => l_equalSet t t
  | LMemo p src => Load p (fun o => match o with Some f => frozen_equalSet f t | None => l_equal src t end)
  | _ => l_equalSet e t
  end.

(** set_frozen.go:53-67 [IsSubsetOf]. *)
Definition frozen_isSubsetOf (s : set T) (t : lset) : prog bool :=
  let loop t := it <~ l_range t ;; subLoop (S (rem it + icost it)) s (s_count s) it in
  match t with
  | LMemo p src => Load p (fun o => match o with Some f => loop (LFrozen f) | None => loop t end)
  | _ => loop t
  end.

(** [IsSubsetOf]: set_base.go:100-102, set_empty.go:62-64, set_memo.go:71. *)
Fixpoint l_isSubsetOf (e t : lset) : prog bool :=
  match e with
  | LEmpty => Ret true
  | LFrozen s => frozen_isSubsetOf s t
  | LMemo p src => Load p (fun o => match o with Some f => frozen_isSubsetOf f t | None => l_isSubsetOf src t end)
  | _ => freezeBoth e t frozen_isSubsetOf
  end.

(** ** Making new sets *)

(** set_union.go:8-12 [union]. *)
Definition union (a b : lset) : prog lset := l_memo (LUnion a b).

(** [x.FastIsEmpty()] returns (true, true). *)
Definition fastEmpty (x : lset) : prog bool :=
  r <~ l_fastIsEmpty x ;; Ret (match r with Some true => true | _ => false end).

(** set_diff.go:8-18 [difference]. *)
Definition difference (a b : lset) : prog lset :=
  ea <~ fastEmpty a ;;
  if (ea : bool) then Ret a
  else
    eb <~ fastEmpty b ;;
    if (eb : bool) then Ret a else l_memo (LDiff a b).

(** set_intersection.go:8-18 [intersection]. *)
Definition intersection (a b : lset) : prog lset :=
  ea <~ fastEmpty a ;;
  if (ea : bool) then Ret LEmpty
  else
    eb <~ fastEmpty b ;;
    if (eb : bool) then Ret LEmpty else l_memo (LInter a b).

(** [Frozen(frozen.NewSet(v))]. *)
Definition single (v : T) : prog lset := s <~ lift (s_new [v]) ;; Ret (LFrozen s).

(** [With]: set_base.go:108-110, set_empty.go:74-76, set_frozen.go:73-75, set_memo.go:74. *)
Definition l_with (e : lset) (v : T) : prog lset :=
  e <~ deref e ;;
  match e with
  | LEmpty => single v
  | LFrozen s => s' <~ lift (s_with s v) ;; Ret (LFrozen s')
  | _ => t <~ single v ;; union e t
  end.

(** [Without]: set_base.go:112-114, set_empty.go:78-80, set_frozen.go:77-79, set_memo.go:75. *)
Definition l_without (e : lset) (v : T) : prog lset :=
  e <~ deref e ;;
  match e with
  | LEmpty => Ret LEmpty
  | LFrozen s => s' <~ lift (s_without s v) ;; Ret (LFrozen s')
  | _ => t <~ single v ;; difference e t
  end.

(** [Where]: set_base.go:104-106, set_empty.go:70-72, set_memo.go:76, set_where.go:9-13. *)
Definition l_where (e : lset) (pred : T -> bool) : prog lset :=
  e <~ deref e ;;
  match e with
  | LEmpty => Ret LEmpty
  | _ => l_memo (LWhere e pred)
  end.

(** [Map]: set_base.go:116-118, set_empty.go:82-84, set_frozen.go:81-83, set_memo.go:77,
    set_transform.go:9-13. *)
Definition l_map (e : lset) (m : T -> T) : prog lset :=
  e <~ deref e ;;
  match e with
  | LEmpty => Ret LEmpty
  | LFrozen s => s' <~ lift (s_map s m) ;; Ret (LFrozen s')
  | _ => l_memo (LMap e m)
  end.

(** [Union]: set_base.go:120-122, set_empty.go:86-88, set_memo.go:78. *)
Definition l_union (e t : lset) : prog lset :=
  e <~ deref e ;;
  match e with
  | LEmpty => Ret t
  | _ => union e t
  end.

(** [Intersection]: set_base.go:124-126, set_empty.go:90-92, set_memo.go:79. *)
Definition l_intersection (e t : lset) : prog lset :=
  e <~ deref e ;;
  match e with
  | LEmpty => Ret LEmpty
  | _ => intersection e t
  end.

(** [Difference]: set_base.go:128-130, set_empty.go:94-96, set_memo.go:80. *)
Definition l_difference (e t : lset) : prog lset :=
  e <~ deref e ;;
  match e with
  | LEmpty => Ret LEmpty
  | _ => difference e t
  end.

(** [SymmetricDifference]: set_base.go:132-134, set_empty.go:98-100, set_memo.go:81, set_symmdiff.go:3-5. *)
Definition l_symmetricDifference (e t : lset) : prog lset :=
  e <~ deref e ;;
  match e with
  | LEmpty => Ret t
  | _ =>
      st <~ l_difference e t ;;
      ts <~ l_difference t e ;;
      l_union st ts
  end.

(** [Powerset]: set_base.go:136-138, set_empty.go:102-104, set_memo.go:82, set_powerset.go:14-18. *)
Definition l_powerset (e : lset) : prog lset :=
  e <~ deref e ;;
  match e with
  | LEmpty => single emptyBox
  | _ => l_memo (LPow e)
  end.

End Lazy.
