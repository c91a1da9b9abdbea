(** * LazyCost: how many calls the Fast methods of lazy sets make.

    The interface says of its Fast methods that they answer "in O(1) time. Otherwise, ok=false" (lazy/set.go:18-32), of FastHas
    "in <= O(log n) time" (set.go:56-57). The methods below are those of Lazy.v; besides their answer they give the number of calls of
    methods of lazy sets and their iterators they make: FastIsEmpty, FastCount, FastHas, FastCountUpTo, CountUpTo, Range and Next, the
    call itself included. Simplifications: what one call of Range or Next does inside counts as one call; so does a call of a
    frozen set's method (its own cost is that of C58). *)
From Verif Require Import Base Bits Env Node Iter Tree SetApi Lazy.
Local Open Scope Z_scope.

Section LazyCost.
Context {E : Env} {T : Type} {K : Key T} {B : Boxes T}.
Notation lset := (lset T).
Notation liter := (liter T).
Notation prog := (prog T).

(** A computation that also gives the number of its calls. *)
Definition nprog (A : Type) : Type := prog (A * nat).
(** No call, one more call, and one computation after the other. *)
Definition nret {A} (a : A) : nprog A := Ret (a, 0%nat).
Definition tick {A} (m : nprog A) : nprog A := x <~ m ;; Ret (fst x, S (snd x)).
Definition nbind {A C} (m : nprog A) (k : A -> nprog C) : nprog C :=
  x <~ m ;; y <~ k (fst x) ;; Ret (fst y, (snd x + snd y)%nat).
(** Work without such calls. *)
Definition nlift {A} (m : prog A) : nprog A := a <~ m ;; nret a.

(** [l_fastIsEmpty]: set_base.go:26-28, set_empty.go:15-17, set_frozen.go:20-22, set_memo.go:63, set_where.go:15-20,
    set_powerset.go:24-26. *)
Fixpoint l_fastIsEmptyN (e : lset) : nprog (option bool) :=
  tick (match e with
  | LEmpty => nret (Some true)
  | LFrozen s => nret (Some (s_isEmpty s))
  | LMemo p src =>
      Load p (fun o => match o with Some f => tick (nret (Some (s_isEmpty f))) | None => l_fastIsEmptyN src end)
  | LWhere src _ => nbind (l_fastIsEmptyN src) (fun r => nret (match r with Some true => Some true | _ => None end))
  | LPow src => l_fastIsEmptyN src
  | LUnion _ _ | LInter _ _ | LDiff _ _ | LMap _ _ => nret None
  end).

(** [l_fastCount]: set_base.go:37-39, set_empty.go:23-25, set_frozen.go:24-26, set_memo.go:65, set_powerset.go:35-43. *)
Fixpoint l_fastCountN (e : lset) : nprog (option Z) :=
  tick (match e with
  | LEmpty => nret (Some 0)
  | LFrozen s => nret (Some (s_count s))
  | LMemo p src => Load p (fun o => match o with Some f => tick (nret (Some (s_count f))) | None => l_fastCountN src end)
  | LPow src =>
      nbind (l_fastCountN src) (fun r =>
        match r with Some c => nbind (nlift (pow2 c)) (fun n => nret (Some n)) | None => nret None end)
  | _ => nret None
  end).

(** [l_fastHas]: set_base.go:96-98, set_empty.go:58-60, set_frozen.go:35-37, set_memo.go:73, set_union.go:34-39 and
    set_diff.go:24-29 (both ask [a] twice), set_intersection.go:24-34. *)
Fixpoint l_fastHasN (e : lset) (el : T) : nprog (option bool) :=
  tick (match e with
  | LEmpty => nret (Some false)
  | LFrozen s => nbind (nlift (lift (s_has s el))) (fun b => nret (Some b))
  | LMemo p src =>
      Load p (fun o => match o with
                       | Some f => tick (nbind (nlift (lift (s_has f el))) (fun b => nret (Some b)))
                       | None => l_fastHasN src el
                       end)
  | LUnion a _ | LDiff a _ =>
      nbind (l_fastHasN a el) (fun r => match r with Some b => nret (Some b) | None => l_fastHasN a el end)
  | LInter a b =>
      nbind (l_fastHasN a el) (fun r1 =>
        match r1 with
        | Some false => nret (Some false)
        | _ =>
            nbind (l_fastHasN b el) (fun r2 =>
              nret (match r1, r2 with
                    | _, Some false => Some false
                    | Some x, Some y => Some (x && y)%bool
                    | _, _ => None
                    end))
        end)
  | _ => nret None
  end).

(** [countLoop]: set_base.go:45-48. *)
Fixpoint countLoopN (k : nat) (it : liter) (n limit : Z) : nprog Z :=
  if n <? limit then
    match k with
    | O => PFuel
    | S k =>
        tick (nbind (nlift (l_next it)) (fun x =>
          let '(ok, it') := x in if (ok : bool) then countLoopN k it' (n + 1) limit else nret n))
    end
  else nret n.

(** [base_countUpTo]: set_base.go:41-50. *)
Definition base_countUpToN (r : option Z) (range : prog liter) (limit : Z) : nprog Z :=
  match r with
  | Some c => nret c
  | None => tick (nbind (nlift range) (fun it => countLoopN (S (rem it)) it 0 limit))
  end.

(** [l_countUpTo_]: set_base.go:41-54, set_empty.go:27-33, set_frozen.go:28-33, set_memo.go:66,84-86, set_union.go:14-28,
    set_powerset.go:45-57. A CountUpTo that begins with a call of FastCountUpTo (set_base.go:42) counts both. *)
Fixpoint l_countUpToN_ (fast : bool) (e : lset) (limit : Z) : nprog (option Z) :=
  let call (r : nprog (option Z)) : nprog (option Z) :=
    if fast then tick r
    else tick (nbind (tick r) (fun r => nbind (base_countUpToN r (l_range e) limit) (fun c => nret (Some c)))) in
  match e with
  | LEmpty => tick (nret (Some 0))
  | LFrozen s => tick (nret (Some (upTo (s_count s) limit)))
  | LMemo p src =>
      tick (Load p (fun o => match o with
                             | Some f => tick (nret (Some (upTo (s_count f) limit)))
                             | None => l_countUpToN_ fast src limit
                             end))
  | LUnion a b =>
      call (nbind (l_fastIsEmptyN a) (fun ea =>
            match ea with
            | Some true => l_countUpToN_ false b limit
            | _ =>
                nbind (l_fastIsEmptyN b) (fun eb =>
                match eb with
                | Some true => l_countUpToN_ false a limit
                | _ =>
                    nbind (l_countUpToN_ true a limit) (fun ca =>
                    if match ca with Some c => c =? limit | None => false end then nret ca
                    else
                      nbind (l_countUpToN_ true b limit) (fun cb =>
                      if match cb with Some c => c =? limit | None => false end then nret cb
                      else nret None))
                end)
            end))
  | LPow src =>
      call (nbind (l_fastCountN src) (fun c =>
            match c with
            | Some c => nbind (nlift (pow2 c)) (fun n => nret (Some (upTo n limit)))
            | None => nret None
            end))
  | LInter _ _ | LDiff _ _ | LWhere _ _ | LMap _ _ => call (nret None)
  end.
(** [FastCountUpTo]. *)
Definition l_fastCountUpToN (e : lset) (limit : Z) : nprog (option Z) := l_countUpToN_ true e limit.

(** ** Reading programs *)

(** What a load of each pointer may give. *)
Definition loads : Type := nat -> option (set T) -> Prop.
(** Anything: other goroutines may be at work. *)
Definition anyLoad : loads := fun _ _ => True.
(** Only this goroutine is at work, and memory is [h]. *)
Definition aloneIn (h : lheap T) : loads := fun p o => nth_error h p = Some o.

(** Two programs that do the same, with related answers. *)
Inductive Same (L : loads) {A C : Type} (R : A -> C -> Prop) : prog A -> prog C -> Prop :=
| same_ret a c : R a c -> Same L R (Ret a) (Ret c)
| same_panic : Same L R PPanic PPanic
| same_fuel : Same L R PFuel PFuel
| same_load p k k' : (forall o, L p o -> Same L R (k o) (k' o)) -> Same L R (Load p k) (Load p k')
| same_store p f k k' : Same L R k k' -> Same L R (Store p f k) (Store p f k')
| same_alloc src k k' : (forall p, Same L R (k p) (k' p)) -> Same L R (Alloc src k) (Alloc src k').

(** The program only reads memory, makes at most [n] calls, and its answer satisfies [Q]. *)
Inductive Within (L : loads) {A : Type} (n : nat) (Q : A -> Prop) : nprog A -> Prop :=
| within_ret a k : (k <= n)%nat -> Q a -> Within L n Q (Ret (a, k))
| within_panic : Within L n Q PPanic
| within_fuel : Within L n Q PFuel
| within_load p k : (forall o, L p o -> Within L n Q (k o)) -> Within L n Q (Load p k).

(** The number of objects an expression is made of, whatever the sizes of the frozen sets in it. *)
Fixpoint objects (e : lset) : nat :=
  match e with
  | LEmpty | LFrozen _ => 1
  | LMemo _ src | LWhere src _ | LMap src _ | LPow src => S (objects src)
  | LUnion a b | LInter a b | LDiff a b => S (objects a + objects b)
  end.

(** The same expression but for the predicates and mappers. *)
Inductive Alike : lset -> lset -> Prop :=
| al_empty : Alike LEmpty LEmpty
| al_frozen s : Alike (LFrozen s) (LFrozen s)
| al_memo p a b : Alike a b -> Alike (LMemo p a) (LMemo p b)
| al_union a b a' b' : Alike a a' -> Alike b b' -> Alike (LUnion a b) (LUnion a' b')
| al_inter a b a' b' : Alike a a' -> Alike b b' -> Alike (LInter a b) (LInter a' b')
| al_diff a b a' b' : Alike a a' -> Alike b b' -> Alike (LDiff a b) (LDiff a' b')
| al_where a b p q : Alike a b -> Alike (LWhere a p) (LWhere b q)
| al_map a b f g : Alike a b -> Alike (LMap a f) (LMap b g)
| al_pow a b : Alike a b -> Alike (LPow a) (LPow b).

(** No operand of a union that FastCountUpTo asks is known to be empty. *)
Fixpoint NoneEmpty (L : loads) (e : lset) : Prop :=
  match e with
  | LMemo p src => L p None -> NoneEmpty L src
  | LUnion a b =>
      Within L (objects a) (fun r => r <> Some true) (l_fastIsEmptyN a) /\
      Within L (objects b) (fun r => r <> Some true) (l_fastIsEmptyN b) /\ NoneEmpty L a /\ NoneEmpty L b
  | _ => True
  end.

(** At most this many calls of FastHas. *)
Fixpoint hasCalls (e : lset) : nat :=
  match e with
  | LMemo _ src => S (hasCalls src)
  | LUnion a _ | LDiff a _ => S (2 * hasCalls a)
  | LInter a b => S (hasCalls a + hasCalls b)
  | _ => 1
  end.

(** FastHas finds a frozen set to ask at every end of the expression. *)
Fixpoint Known (e : lset) : Prop :=
  match e with
  | LEmpty | LFrozen _ => True
  | LMemo _ src => Known src
  | LUnion a _ | LDiff a _ => Known a
  | LInter a b => Known a /\ Known b
  | _ => False
  end.

(** ** Programs that show the slow cases *)

(** [x.With(v)], n times over. *)
Fixpoint withs (n : nat) (e : lset) (v : T) : prog lset :=
  match n with
  | O => Ret e
  | S k => e' <~ l_with e v ;; withs k e' v
  end.
(** [Frozen(s).Where(p).With(v)...With(v)]. *)
Definition whereWiths (s : set T) (p : T -> bool) (v : T) (n : nat) : prog lset := e <~ l_where (LFrozen s) p ;; withs n e v.
(** [Frozen(frozen.Set[any]{}).Union(Frozen(s).Where(p))]. *)
Definition emptyOrWhere (s : set T) (p : T -> bool) : prog lset :=
  e <~ l_where (LFrozen s) p ;; l_union (LFrozen s_empty) e.

End LazyCost.
