(** * SetApi: set.go, set_ops.go, set_builder.go and set_extra.go
    (ordered iteration is in Ordered.v, grouping in MapApi.v). *)
From Verif Require Import Base Bits Env Node Iter Tree.
Local Open Scope Z_scope.

(** set.go:14-17 [Set]. *)
Record set (T : Type) := mkSet { s_tree : tree T }.
Arguments mkSet {T} _.
Arguments s_tree {T} _.

(** set_builder.go:9-12 [SetBuilder]; the tree under construction of builder.go:22-25. *)
Record setBuilder (T : Type) := mkSB { sb_tree : tree T }.
Arguments mkSB {T} _.
Arguments sb_tree {T} _.

Section SetApi.
Context {E : Env} {T : Type} {K : Key T}.
Notation set := (set T).
Notation setBuilder := (setBuilder T).

(** The zero value [Set[T]{}]. *)
Definition s_empty : set := mkSet emptyTree.

(** ** set_builder.go *)

(** set_builder.go:14-16 [NewSetBuilder] (builder.go:27-29: the capacity is ignored). *)
Definition newSetBuilder (capacity : Z) : setBuilder := mkSB emptyTree.
(** set_builder.go:19-21 [Count]. *)
Definition sb_count (b : setBuilder) : Z := t_count (sb_tree b).
(** set_builder.go:24-26 [Add]. *)
Definition sb_add (b : setBuilder) (v : T) : res setBuilder := rmap mkSB (b_add (sb_tree b) v).
(** set_builder.go:29-31 [Remove]. *)
Definition sb_remove (b : setBuilder) (v : T) : res setBuilder := rmap mkSB (b_remove (sb_tree b) v).
(** set_builder.go:33-35 [Has]. *)
Definition sb_has (b : setBuilder) (v : T) : res bool := rmap isSome (b_get (sb_tree b) v).
(** set_builder.go:39-41 [Finish]: the set, and the builder afterwards. *)
Definition sb_finish (b : setBuilder) : set * setBuilder :=
  let '(t, b') := b_finish (sb_tree b) in (mkSet t, mkSB b').

(** [for _, v := range vs { b.Add(v) }]. *)
Definition sb_addAll (b : setBuilder) (vs : list T) : res setBuilder := foldM sb_add b vs.

(** ** set.go *)

(** set.go:33-39 [NewSet]. *)
Definition s_new (vs : list T) : res set :=
  b <- sb_addAll (newSetBuilder (Z.of_nat (length vs))) vs ;; Ok (fst (sb_finish b)).

(** set.go:54-56 [IsEmpty]. *)
Definition s_isEmpty (s : set) : bool := t_count (s_tree s) =? 0.
(** set.go:59-61 [Count]. *)
Definition s_count (s : set) : Z := t_count (s_tree s).
(** set.go:49-51 [gauge]. *)
Definition s_gauge (s : set) : gauge := newGauge (s_count s).
(** set.go:64-66 [Range]. *)
Definition s_range (s : set) : iter T := t_iterator (s_tree s).
(** One call of [Next] on an iterator over a set. *)
Definition i_next (it : iter T) : res (bool * iter T) := inext (S treeFuel) it.
(** [Value]. *)
Definition i_value (it : iter T) : res T := ivalue it.

(** set.go:68-74 [Elements]. *)
Definition s_elements (s : set) : res (list T) := t_range (s_tree s).

(** set.go:86-91 [Any]. *)
Definition s_any (s : set) : res T :=
  '(b, it) <- i_next (s_range s) ;;
  if (b : bool) then i_value it else Panic.

(** set.go:94-103 [AnyN]: the loop of line 99. *)
Fixpoint anyN_loop (fuel : nat) (it : iter T) (n : Z) (b : setBuilder) : res setBuilder :=
  match fuel with
  | O => Fuel
  | S k =>
      '(ok, it') <- i_next it ;;
      if (ok && (0 <? n))%bool then
        v <- i_value it' ;;
        b' <- sb_add b v ;;
        anyN_loop k it' (n - 1) b'
      else Ok b
  end.
(** set.go:94-103 [AnyN]. (The number of elements is only used as recursion fuel.) *)
Definition s_anyN (s : set) (n : Z) : res set :=
  if s_count s <? n then Ok s
  else
    b <- anyN_loop (S (length (elemso (t_root (s_tree s))))) (s_range s) n (newSetBuilder n) ;;
    Ok (fst (sb_finish b)).

(** set.go:164-170 [Hash] on a 64-bit platform. *)
Definition s_hash (s : set) (seed : N) : res N :=
  vs <- s_elements s ;;
  Ok (fold_left (fun h v => N.lxor h (vhash v seed)) vs
        (wrap 64 (env_uintptr 10538386443025343807%N seed))).

(** set.go:173-176 [Equal] (set.go:45-47 [eqArgs]). *)
Definition s_equal (s t : set) : res bool := t_equal (s_gauge s) veq (s_tree s) (s_tree t).

(** set.go:179-182 [Same]: [a] is [Some t] if its dynamic type is [Set[T]]. *)
Definition s_same (s : set) (a : option set) : res bool :=
  match a with Some t => s_equal s t | None => Ok false end.

(** set.go:185-187 [IsSubsetOf]. *)
Definition s_isSubsetOf (s t : set) : res bool := t_subsetOf (s_gauge s) (s_tree s) (s_tree t).

(** set.go:190-192 [Has]. *)
Definition s_has (s : set) (v : T) : res bool := rmap isSome (t_get (s_tree s) v).

(** set.go:195-198 [With]. *)
Definition s_with (s : set) (v : T) : res set := rmap mkSet (t_with (s_tree s) v).

(** set.go:201-204 [Without]. *)
Definition s_without (s : set) (v : T) : res set := rmap mkSet (t_without (s_tree s) v).

(** set.go:207-214 [Where]. *)
Definition s_where (s : set) (pred : T -> bool) : res set :=
  rmap mkSet (t_where (s_gauge s) pred (s_tree s)).

(** set.go:233-235 [Reduce]; [None] is [(zero, false)]. *)
Definition s_reduce (s : set) (r : list T -> T) : res (option T) :=
  t_reduce (s_gauge s) r (s_tree s).

(** set.go:241-247: the reducer built by [Reduce2]. [dflt] stands for the panic of [elems[0]] on
    an empty list; the theorems hold for every [dflt] (the list is never empty). *)
Definition reducer2 (dflt : T) (op : T -> T -> T) (l : list T) : T :=
  match l with
  | [] => dflt
  | a :: l' => fold_left op l' a
  end.
(** set.go:240-248 [Reduce2]. *)
Definition s_reduce2 (dflt : T) (s : set) (op : T -> T -> T) : res (option T) :=
  s_reduce s (reducer2 dflt op).

(** set.go:251-253 [Intersection]. *)
Definition s_intersection (s t : set) : res set :=
  rmap mkSet (t_intersection (s_gauge s) (s_tree s) (s_tree t)).

(** internal/pkg/tree/branch.go:17-21 [UseRHS] and [UseLHS]. *)
Definition useRHS (a b : T) : T := b.
Definition useLHS (a b : T) : T := a.

(** set.go:256-259 [Union]. *)
Definition s_union (s t : set) : res set :=
  rmap mkSet (t_combine (combineArgs (s_gauge s) useRHS) (s_tree s) (s_tree t)).

(** set.go:262-264 [Difference]. *)
Definition s_difference (s t : set) : res set :=
  rmap mkSet (t_difference NonParallel (s_tree s) (s_tree t)).

(** set.go:268-272 [SymmetricDifference]. *)
Definition s_symmetricDifference (s t : set) : res set :=
  st <- s_difference s t ;;
  ts <- s_difference t s ;;
  s_union st ts.

(** set_ops.go:4-13 [Intersection]. *)
Definition s_intersectionN (sets : list set) : res set :=
  match sets with
  | [] => Panic
  | s :: _ => foldM s_intersection s sets
  end.

(** set_ops.go:16-22 [Union]. *)
Definition s_unionN (sets : list set) : res set := foldM s_union s_empty sets.

(** set_extra.go:53-60 [MarshalJSON]: the slice handed to json.Marshal. *)
Definition s_marshalProxy (s : set) : res (list T) := s_elements s.

End SetApi.

(** set.go:217-219 [SetMap]. *)
Definition s_map {E : Env} {T U : Type} {KU : Key U} (s : set T) (f : T -> U) : res (set U) :=
  rmap mkSet (t_map f (s_tree s)).

(** set.go:274-281 [SetAs]: [conv] is the type assertion [e.(U)]. *)
Definition s_as {E : Env} {T U : Type} {KU : Key U} (conv : T -> option U) (s : set T) : res (set U) :=
  vs <- s_elements s ;;
  b <- foldM (fun b v => match conv v with Some u => sb_add b u | None => Panic end)
         (mkSB emptyTree) vs ;;
  Ok (fst (sb_finish b)).

(** set.go:283-289 [AsSetAny]: [inj] is the conversion to [any]. *)
Definition s_asAny {E : Env} {T U : Type} {KU : Key U} (inj : T -> U) (s : set T) : res (set U) :=
  vs <- s_elements s ;;
  b <- foldM (fun b v => sb_add b (inj v)) (mkSB emptyTree) vs ;;
  Ok (fst (sb_finish b)).

(** Sets as elements of sets and keys of maps: [value.Equal] calls [Set.Equal] and [hash.Any] calls
    [Set.Hash] (set.go:20-25). Both never panic on sets obtained from the API
    (theorems C05 and C07), so the other branches are never taken. *)
#[global] Instance setKey {E : Env} {T : Type} {K : Key T} : Key (set T) := {
  veq := fun s t => match s_equal s t with Ok b => b | _ => false end;
  vhash := fun s seed => match s_hash s seed with Ok h => h | _ => 0%N end;
}.

(** ** Powerset *)

(** internal/pkg/iterator/bititer.go:12-14 [Next]. *)
Definition bi_next (b : N) : N := strip_low 64 b.
(** bititer.go:16-18 [Index]. *)
Definition bi_index (b : N) : nat := ctz 64 b.
(** bititer.go:20-22 [Count]. *)
Definition bi_count (b : N) : nat := popcount 64 b.
(** bititer.go:24-26 [Has]: a shift by 64 or more gives 0. *)
Definition bi_has (b : N) (i : nat) : bool := negb (N.land b (wshl 64 1 (N.of_nat i)) =? 0)%N.
(** bititer.go:28-30 [With]. *)
Definition bi_with (b : N) (i : nat) : N := N.lor b (wshl 64 1 (N.of_nat i)).
(** bititer.go:32-34 [Without]: in Go [&^] and [<<] have the same precedence and associate to the
    left, so [b &^ BitIterator(1) << uint(i)] is [(b &^ 1) << i]. *)
Definition bi_without (b : N) (i : nat) : N := wshl 64 (N.ldiff b 1) (N.of_nat i).
(** [for m := b; m != 0; m = m.Next() { i := m.Index() ... }]: the indices visited. *)
Definition bi_indices (b : N) : list nat := bit_loop 64 64 b.

(** set.go:297-332: one round of the loop, for the value [i] of the loop variable. *)
Definition powerset_step {E : Env} {T : Type} {K : Key T} (elements : list T)
    (st : set T * set (set T)) (i : N) : res (set T * set (set T)) :=
  let '(subset, result) := st in
  let flip := bi_index i in
  match nth_error elements flip with
  | None => Panic                                                    (* index out of range *)
  | Some e =>
      subset' <- (if bi_has i (flip + 1) then s_without subset e else s_with subset e) ;;
      result' <- s_with result subset' ;;
      Ok (subset', result')
  end.

(** set.go:291-334 [Powerset]. The loop variable runs through 1, ..., 2^n - 1 (n <= 63, so neither
    [1<<uint(n)] nor [i++] overflows). *)
Definition s_powerset {E : Env} {T : Type} {K : Key T} (s : set T) : res (set (set T)) :=
  let n := s_count s in
  if 63 <? n then Panic
  else
    elements <- s_elements s ;;
    result <- s_new [s_empty] ;;
    '(_, result) <- foldM (powerset_step elements) (s_empty, result)
        (map N.of_nat (seq 1 (2 ^ Z.to_nat n - 1))) ;;
    Ok result.

(** ** set_extra.go *)

(** set_extra.go:43-50: [NewSetFromMask64] for an element type converted from [int]. *)
Definition s_fromMask64 {E : Env} {K : Key Z} (mask : N) : res (set Z) :=
  b <- sb_addAll (mkSB emptyTree) (map Z.of_nat (bi_indices mask)) ;;
  Ok (fst (sb_finish b)).

(** Two's complement wrap-around of a 64-bit [int]. *)
Definition int64 (z : Z) : Z := (z + 2 ^ 63) mod 2 ^ 64 - 2 ^ 63.

(** set_extra.go:30-32 and 34-36: the values added by the loop; [Fuel] if it has not ended after
    [fuel] rounds. *)
Fixpoint iota_loop (fuel : nat) (i stop step : Z) : res (list Z) :=
  match fuel with
  | O => Fuel
  | S k =>
      if (if 0 <? step then i <? stop else stop <? i)
      then l <- iota_loop k (int64 (i + step)) stop step ;; Ok (i :: l)
      else Ok []
  end.

(** set_extra.go:21-39 [Iota3]. The model runs at most [fuel] rounds of the loop. *)
Definition s_iota3 {E : Env} {K : Key Z} (fuel : nat) (start stop step : Z) : res (set Z) :=
  if step =? 0 then (if start =? stop then Ok s_empty else Panic)
  else
    vs <- iota_loop fuel start stop step ;;
    b <- sb_addAll (mkSB emptyTree) vs ;;
    Ok (fst (sb_finish b)).
(** set_extra.go:10-12 [Iota]. *)
Definition s_iota {E : Env} {K : Key Z} (fuel : nat) (stop : Z) : res (set Z) := s_iota3 fuel 0 stop 1.
(** set_extra.go:15-17 [Iota2]. *)
Definition s_iota2 {E : Env} {K : Key Z} (fuel : nat) (start stop : Z) : res (set Z) :=
  s_iota3 fuel start stop 1.
